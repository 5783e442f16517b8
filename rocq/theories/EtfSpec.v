(** Erlang terms, the documented way to build one with the builder, and a decoder
    written from the published external term format
    (https://www.erlang.org/doc/apps/erts/erl_ext_dist.html). *)
From Coq Require Import NArith ZArith List Bool.
From Verif Require Import Etf.
Import ListNotations.
Open Scope N_scope.

Inductive term :=
| TAtom (utf8 : bytes)
| TInt (z : Z)
| TFloat (bits : N)
| TBinary (bs : bytes)
| TTuple (elements : list term)
| TList (elements : list term).

(** ** Building a term, as the documentation of the builder says. *)
Fixpoint build (t : term) (b : builder) : builder :=
  match t with
  | TAtom name => atom b name
  | TInt z => bigint b z
  | TFloat bits => new_float b bits
  | TBinary bs => binary b (N.of_nat (length bs)) bs
  | TTuple ts =>
      let n := N.of_nat (length ts) in
      fold_left (fun b t => build t b) ts (if n <=? 255 then small_tuple b n else large_tuple b n)
  | TList ts =>
      match ts with
      | [] => empty_list b
      | _ =>
          let '(b, list) := start_list b in
          end_list (fold_left (fun b t => build t b) ts b) list (N.of_nat (length ts))
      end
  end.

(** ** Decoding *)

Fixpoint be_value (bs : bytes) : N :=
  match bs with [] => 0 | b :: bs => b * 256 ^ N.of_nat (length bs) + be_value bs end.
Fixpoint le_value (bs : bytes) : N :=
  match bs with [] => 0 | b :: bs => b + 256 * le_value bs end.

(** The first [n] bytes and the rest. *)
Definition take (n : N) (bs : bytes) : option (bytes * bytes) :=
  if n <=? N.of_nat (length bs) then Some (firstn (N.to_nat n) bs, skipn (N.to_nat n) bs) else None.

(** A signed 32-bit value. *)
Definition signed32 (x : N) : Z :=
  if x <? 2 ^ 31 then Z.of_N x else (Z.of_N x - 2 ^ 32)%Z.

Definition with_sign (sign : N) (x : N) : Z :=
  if sign =? 0 then Z.of_N x else (- Z.of_N x)%Z.

(** [n] terms one after the other. *)
Fixpoint decode_n (decode : bytes -> option (term * bytes)) (n : nat) (bs : bytes)
  : option (list term * bytes) :=
  match n with
  | O => Some ([], bs)
  | S n =>
      match decode bs with
      | Some (t, bs) =>
          match decode_n decode n bs with
          | Some (ts, bs) => Some (t :: ts, bs)
          | None => None
          end
      | None => None
      end
  end.

(** Decode one term from the front; returns the unread bytes.  [depth] bounds the
    nesting of terms. *)
Fixpoint decode (depth : nat) (bs : bytes) : option (term * bytes) :=
  match depth with
  | O => None
  | S depth =>
    match bs with
    (* SMALL_INTEGER_EXT *)
    | 97 :: x :: bs => Some (TInt (Z.of_N x), bs)
    (* INTEGER_EXT *)
    | 98 :: bs =>
        match take 4 bs with
        | Some (x, bs) => Some (TInt (signed32 (be_value x)), bs)
        | None => None
        end
    (* NEW_FLOAT_EXT *)
    | 70 :: bs =>
        match take 8 bs with
        | Some (x, bs) => Some (TFloat (be_value x), bs)
        | None => None
        end
    (* SMALL_TUPLE_EXT *)
    | 104 :: n :: bs =>
        match decode_n (decode depth) (N.to_nat n) bs with
        | Some (ts, bs) => Some (TTuple ts, bs)
        | None => None
        end
    (* LARGE_TUPLE_EXT *)
    | 105 :: bs =>
        match take 4 bs with
        | Some (n, bs) =>
            match decode_n (decode depth) (N.to_nat (be_value n)) bs with
            | Some (ts, bs) => Some (TTuple ts, bs)
            | None => None
            end
        | None => None
        end
    (* NIL_EXT *)
    | 106 :: bs => Some (TList [], bs)
    (* LIST_EXT, proper lists only: the tail must be NIL_EXT *)
    | 108 :: bs =>
        match take 4 bs with
        | Some (n, bs) =>
            match decode_n (decode depth) (N.to_nat (be_value n)) bs with
            | Some (ts, 106 :: bs) => Some (TList ts, bs)
            | _ => None
            end
        | None => None
        end
    (* BINARY_EXT *)
    | 109 :: bs =>
        match take 4 bs with
        | Some (n, bs) =>
            match take (be_value n) bs with
            | Some (x, bs) => Some (TBinary x, bs)
            | None => None
            end
        | None => None
        end
    (* SMALL_BIG_EXT *)
    | 110 :: n :: sign :: bs =>
        match take n bs with
        | Some (x, bs) => Some (TInt (with_sign sign (le_value x)), bs)
        | None => None
        end
    (* LARGE_BIG_EXT *)
    | 111 :: bs =>
        match take 4 bs with
        | Some (n, sign :: bs) =>
            match take (be_value n) bs with
            | Some (x, bs) => Some (TInt (with_sign sign (le_value x)), bs)
            | None => None
            end
        | _ => None
        end
    (* SMALL_ATOM_UTF8_EXT *)
    | 119 :: n :: bs =>
        match take n bs with
        | Some (x, bs) => Some (TAtom x, bs)
        | None => None
        end
    (* ATOM_UTF8_EXT *)
    | 118 :: bs =>
        match take 2 bs with
        | Some (n, bs) =>
            match take (be_value n) bs with
            | Some (x, bs) => Some (TAtom x, bs)
            | None => None
            end
        | None => None
        end
    | _ => None
    end
  end.

(** A whole message: the version byte, then one term. *)
Definition decode_message (depth : nat) (bs : bytes) : option (term * bytes) :=
  match bs with
  | 131 :: bs => decode depth bs
  | _ => None
  end.

(** ** The documented limits of the format *)
Fixpoint in_limits (t : term) : Prop :=
  match t with
  | TAtom name => N.of_nat (length name) < 2 ^ 16
  | TInt z => (Z.abs z < 256 ^ 255)%Z
  | TFloat bits => bits < 2 ^ 64
  | TBinary bs => N.of_nat (length bs) < 2 ^ 32
  | TTuple ts | TList ts =>
      N.of_nat (length ts) < 2 ^ 32
      /\ (fix all l := match l with [] => True | t :: l => in_limits t /\ all l end) ts
  end.

Fixpoint depth (t : term) : nat :=
  match t with
  | TTuple ts | TList ts =>
      S ((fix deepest l := match l with [] => O | t :: l => Nat.max (depth t) (deepest l) end) ts)
  | _ => 1%nat
  end.
