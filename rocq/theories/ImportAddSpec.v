(** How the text of a module is made up, for C116.  Nothing here uses the model of the edit, except the record of locations. *)
From Coq Require Import String Arith NArith List Bool Permutation.
From Verif Require Import Text ImportAdd.
Import ListNotations.
Local Open Scope list_scope.
Local Open Scope nat_scope.

(** A definition: the attributes before it, its text, and the blank lines and comments behind it. *)
Record part := Part { attributes : text; is_import : bool; body : text; gap : text }.
Definition text_of (p : part) : text := attributes p ++ body p ++ gap p.
(** A module: comments and blank lines, and definitions. *)
Definition source (head : text) (parts : list part) : text := head ++ concat (map text_of parts).
(** The location of a definition is that of its text, without attributes: parse.rs:327-330. *)
Fixpoint locations (p : nat) (parts : list part) : list (bool * span) :=
  match parts with
  | [] => []
  | d :: parts =>
      let start := p + length (attributes d) in
      (is_import d, (start, start + length (body d))) :: locations (start + length (body d) + length (gap d)) parts
  end.
Definition of_kind (k : bool) (l : list (bool * span)) : list span := map snd (filter (fun x => Bool.eqb (fst x) k) l).
(** The definitions the compiler knows are those in the text, sorted by kind, in any order. *)
Definition located (d : definitions) (head : text) (parts : list part) : Prop :=
  Forall (fun p => body p <> []) parts
  /\ Permutation (imports d) (of_kind true (locations (length head) parts))
  /\ Permutation (constants d ++ custom_types d ++ type_aliases d ++ functions d) (of_kind false (locations (length head) parts)).
Definition edited (code : text) (e : nat * text) : text := firstn (fst e) code ++ snd e ++ skipn (fst e) code.
(** The first definition is an import. *)
Definition first_is_import (parts : list part) : Prop := exists d rest, parts = d :: rest /\ is_import d = true.
