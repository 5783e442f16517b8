(** Text as a list of Unicode code points, shared by the models of textual code. *)
From Coq Require Import NArith List Bool Ascii String.
Import ListNotations.

Definition text := list N.

(** An ASCII string literal as text, for constants and examples. *)
Fixpoint str (s : string) : text :=
  match s with EmptyString => [] | String c s => N_of_ascii c :: str s end.

Fixpoint text_eqb (a b : text) : bool :=
  match a, b with
  | [], [] => true
  | x :: a, y :: b => (x =? y)%N && text_eqb a b
  | _, _ => false
  end.

(** Rust's comparison of strings is by bytes; UTF-8 makes it the comparison by code
    points. *)
Fixpoint text_cmp (a b : text) : comparison :=
  match a, b with
  | [], [] => Eq
  | [], _ => Lt
  | _, [] => Gt
  | x :: a, y :: b => match (x ?= y)%N with Eq => text_cmp a b | c => c end
  end.

(** [str::starts_with] *)
Fixpoint starts_with (p s : text) : bool :=
  match p, s with
  | [], _ => true
  | x :: p, y :: s => (x =? y)%N && starts_with p s
  | _ :: _, [] => false
  end.

(** The longest prefix of characters satisfying [p], and the rest. *)
Fixpoint span_while (p : N -> bool) (s : text) : text * text :=
  match s with
  | [] => ([], [])
  | c :: s' => if p c then let '(a, b) := span_while p s' in (c :: a, b) else ([], s)
  end.

Definition is_digit (c : N) : bool := (48 <=? c)%N && (c <=? 57)%N.
Definition is_upper (c : N) : bool := (65 <=? c)%N && (c <=? 90)%N.
Definition is_lower (c : N) : bool := (97 <=? c)%N && (c <=? 122)%N.
Definition is_alphanumeric (c : N) : bool := is_digit c || is_upper c || is_lower c.

(** Decimal notation. *)
Definition digit (d : N) : N := (48 + d)%N.
Fixpoint decimal_fuel (fuel : nat) (n : N) : text :=
  match fuel with
  | O => []
  | S fuel => if (n <? 10)%N then [digit n] else (decimal_fuel fuel (n / 10) ++ [digit (n mod 10)])%list
  end.
Definition decimal (n : N) : text := decimal_fuel (S (N.size_nat n)) n.
Definition decimal_value (s : text) : N := fold_left (fun acc c => (10 * acc + (c - 48))%N) s 0%N.
