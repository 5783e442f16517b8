(** Vocabulary for the errors of a package. *)
From Coq Require Import List.
From Verif Require Import Text Incremental.
Import ListNotations.

(** The module that an import stands for: if it was to be compiled earlier in this run, what is
    known after that, else what was known before. *)
Definition sees (before : list uncompiled) (old new : list (text * artefact)) (d : text) (a : artefact) : Prop :=
  (In d (map u_name before) /\ get d new = Some a) \/ (~ In d (map u_name before) /\ get d old = Some a).

(** The imports that are there. *)
Inductive resolved (sees : text -> artefact -> Prop) : list text -> list (text * artefact) -> Prop :=
| no_imports : resolved sees [] []
| there d a ds l : sees d a -> resolved sees ds l -> resolved sees (d :: ds) ((d, a) :: l)
| not_there d ds l : (forall a, ~ sees d a) -> resolved sees ds l -> resolved sees (d :: ds) l.

(** What becomes of [u], which is to be compiled after [before]. *)
Record outcome (w : world) (old new : list (text * artefact)) (incomplete incomplete' failed skipped : list text)
    (before : list uncompiled) (u : uncompiled) : Prop := {
  skipped_iff : In (u_name u) skipped <->
    exists d, In d (u_imports u) /\ In d (map u_name before) /\ (In d failed \/ In d skipped);
  when_skipped : In (u_name u) skipped ->
    ~ In (u_name u) failed /\ get (u_name u) new = get (u_name u) old
    /\ (In (u_name u) incomplete' <-> In (u_name u) incomplete);
  when_not_skipped : ~ In (u_name u) skipped -> exists ds,
    let known := sees before old new in
    let a := Compiled (u_name u) (u_content u) ds in
    let all_there := forall d, In d (u_imports u) -> exists b, known d b in
    resolved known (u_imports u) ds
    /\ match judge w a with
       | Hopeless =>
           In (u_name u) failed /\ get (u_name u) new = get (u_name u) old
           /\ (In (u_name u) incomplete' <-> In (u_name u) incomplete)
       | Faulty => In (u_name u) failed /\ get (u_name u) new = Some a /\ In (u_name u) incomplete'
       | Fine =>
           get (u_name u) new = Some a
           /\ (In (u_name u) failed <-> ~ all_there)
           /\ (In (u_name u) incomplete' <-> ~ all_there)
       end }.
