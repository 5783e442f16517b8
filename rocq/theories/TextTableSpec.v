(** What a table is, for C113 and C114.  Nothing here uses the model of the code that prints it. *)
From Coq Require Import String Arith NArith List Bool Sorting.Sorted Permutation.
From Verif Require Import Text Version VersionSpec.
Import ListNotations.
Local Open Scope list_scope.
Local Open Scope nat_scope.

(** Characters that take one column: printable ASCII. *)
Definition printable (s : text) : Prop := Forall (fun c => (32 <= c < 127)%N) s.
(** Without spaces. *)
Definition one_word (s : text) : Prop := s <> [] /\ Forall (fun c => (33 <= c < 127)%N) s.

(** [laid_out p starts cells s]: when [s] is written from column [p] on, each cell starts at its column, with spaces before the next one and
    nothing behind the last one. *)
Inductive laid_out : nat -> list nat -> list text -> text -> Prop :=
| last_cell p (cell : text) : laid_out p [p] [cell] cell
| a_cell p q starts (cell : text) cells (spaces s : text) : p + length cell + length spaces = q -> Forall (Logic.eq 32%N) spaces ->
    laid_out q (q :: starts) cells s -> laid_out p (p :: q :: starts) (cell :: cells) (cell ++ spaces ++ s).

(** Columns as close as can be: two spaces behind the longest cell of the column before. *)
Definition close (starts : list nat) (rows : list (list text)) : Prop :=
  forall i p q, nth_error starts i = Some p -> nth_error starts (S i) = Some q ->
    (forall row cell, In row rows -> nth_error row i = Some cell -> p + length cell + 2 <= q)
    /\ exists row cell, In row rows /\ nth_error row i = Some cell /\ p + length cell + 2 = q.

Definition lines (l : list text) : text := List.concat (map (fun s => s ++ [10%N]) l).
(** What is under a header. *)
Definition underline (header : text) : text := map (fun _ => 45%N) header.

(** Reading: words are separated by spaces, lines are ended by line feeds. *)
Fixpoint words_from (word : text) (s : text) : list text :=
  match s with
  | [] => match word with [] => [] | _ => [word] end
  | c :: s => if N.eqb c 32 then match word with [] => words_from [] s | _ => word :: words_from [] s end
              else words_from (word ++ [c]) s
  end.
Definition words (s : text) : list text := words_from [] s.
Fixpoint lines_from (l : text) (s : text) : list text :=
  match s with
  | [] => match l with [] => [] | _ => [l] end
  | c :: s => if N.eqb c 10 then l :: lines_from [] s else lines_from (l ++ [c]) s
  end.
(** The headers and the rows of a table. *)
Definition read (s : text) : option (list text * list (list text)) :=
  match map words (lines_from [] s) with headers :: _ :: rows => Some (headers, rows) | _ => None end.

(** Rows in the order of their first cells, none twice. *)
Definition by_name (rows : list (list text)) : Prop :=
  StronglySorted (fun a b => text_cmp (hd [] a) (hd [] b) = Lt) rows.

(** A package with the version it has and the version it could have. *)
Definition an_update (d : text * (version * version)) : Prop :=
  one_word (fst d) /\ legal_version (fst (snd d)) /\ legal_version (snd (snd d)).
Definition row_of (d : text * (version * version)) : list text := [fst d; show (fst (snd d)); show (snd (snd d))].
(** [t] is a table of these updates in the order of their names, each once. *)
Definition lists (t : text) (d : list (text * (version * version))) : Prop :=
  exists rows, read t = Some ([str "Package"; str "Current"; str "Latest"], rows) /\ by_name rows /\ Permutation rows (map row_of d).
