(** Imports between modules and orders of modules. *)
From Coq Require Import List Permutation.
From Verif Require Import Text.
Import ListNotations.

(** [m] imports the known module [d]. *)
Definition imports (inputs : list (text * list text)) (m d : text) : Prop :=
  exists deps, In (m, deps) inputs /\ In d deps /\ In d (map fst inputs).

Definition comes_before {A} (x y : A) (l : list A) : Prop := exists a b c, l = a ++ x :: b ++ y :: c.

(** Every element is imported by the next one, the last by the first. *)
Fixpoint imported_by_next (R : text -> text -> Prop) (first : text) (l : list text) : Prop :=
  match l with
  | [] => True
  | [x] => R first x
  | x :: (y :: _) as r => R y x /\ imported_by_next R first r
  end.
Definition import_loop (inputs : list (text * list text)) (l : list text) : Prop :=
  match l with
  | [] => False
  | first :: _ => NoDup l /\ imported_by_next (imports inputs) first l
  end.
