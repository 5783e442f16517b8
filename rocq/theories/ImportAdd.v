(** Model of how the language server adds an import to a module: /repo/language-server/src/edits.rs:15-90, as used by the code actions
    (code_action.rs:1248-1253 and 4762-4782), completions and renaming (rename.rs:422-452).

    Positions are offsets instead of lines and columns, which is the same place (C08).  Text is ASCII; the only character that is looked at
    by its index is the first one of a module. *)
From Coq Require Import String Arith NArith List Bool.
From Verif Require Import Text.
Import ListNotations.
Local Open Scope list_scope.
Local Open Scope nat_scope.

(** src-span/src/lib.rs:23-26: compared by [start], then by [end]. *)
Definition span := (nat * nat)%type.
Definition at_most (a b : span) : bool := (fst a <? fst b) || ((fst a =? fst b) && (snd a <=? snd b)).

(** The locations in [TypedDefinitions]. *)
Record definitions := Definitions {
  imports : list span; constants : list span; custom_types : list span; type_aliases : list span; functions : list span
}.
(** [Iterator::min_by_key]: the first of the least. *)
Fixpoint least (l : list span) : option span :=
  match l with
  | [] => None
  | a :: l => match least l with Some b => Some (if at_most a b then a else b) | None => Some a end
  end.
(** edits.rs:16-45 [position_of_first_definition_if_import] *)
Definition position_of_first_definition_if_import (d : definitions) : option nat :=
  match least (imports d) with
  | None => None
  | Some first_import =>
      if forallb (at_most first_import) (constants d ++ custom_types d ++ type_aliases d ++ functions d)
      then Some (fst first_import) else None
  end.
(** edits.rs:47-50 *)
Inductive newlines := Single | Double.
(** edits.rs:56-72 [add_newlines_after_import] *)
Definition add_newlines_after_import (location : nat) (has_imports : bool) (src : text) : newlines :=
  let is_new_line := match nth_error src location with Some c => N.eqb c 10 | None => false end in
  if negb has_imports && negb is_new_line then Double else Single.
(** edits.rs:74-90 [get_import_edit]; with [.{item}] behind the name of the module it is rename.rs:440-451. *)
Definition get_import_edit (location : nat) (module_full_name : text) (n : newlines) : nat * text :=
  (location, str "import " ++ module_full_name ++ match n with Single => [10%N] | Double => [10%N; 10%N] end).
(** code_action.rs:4767-4781 [maybe_import], rename.rs:428-452: where to insert, and what.  [unwrap_or_default] is the start of the module. *)
Definition add_import (d : definitions) (code module_full_name : text) : nat * text :=
  let first_import_pos := position_of_first_definition_if_import d in
  let first_is_import := match first_import_pos with Some _ => true | None => false end in
  let import_location := match first_import_pos with Some p => p | None => 0 end in
  get_import_edit import_location module_full_name (add_newlines_after_import import_location first_is_import code).
