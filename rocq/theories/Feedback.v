(** The diagnostics the language server sends: language-server/src/feedback.rs.

    Paths are texts; a diagnostic keeps its path, its level and a number that stands for the rest of
    it.  Hash sets and maps are lists; only their contents matter. *)
From Coq Require Import NArith Bool List.
From Verif Require Import Text.
Import ListNotations.

Inductive level := Error | Warning.
Record diagnostic := Diagnostic { d_path : option text; d_level : level; d_rest : N }.

(** [HashMap] and [HashSet]. *)
Fixpoint get {A} (p : text) (m : list (text * A)) : option A :=
  match m with
  | [] => None
  | (p', a) :: m => if text_eqb p p' then Some a else get p m
  end.
Definition put {A} (p : text) (a : A) (m : list (text * A)) : list (text * A) := (p, a) :: m.
Definition mem (p : text) (s : list text) : bool := existsb (text_eqb p) s.
Definition del (p : text) (s : list text) : list text := filter (fun p' => negb (text_eqb p p')) s.

(** [Feedback], 11-49. *)
Record feedback := Feedback { diagnostics : list (text * list diagnostic); messages : list diagnostic }.
Definition no_feedback : feedback := Feedback [] [].
Definition unset_existing_diagnostics (p : text) (f : feedback) : feedback :=
  Feedback (put p [] (diagnostics f)) (messages f).
Definition append_diagnostic (p : text) (d : diagnostic) (f : feedback) : feedback :=
  Feedback (put p (match get p (diagnostics f) with Some ds => ds ++ [d] | None => [d] end) (diagnostics f)) (messages f).
Definition append_message (d : diagnostic) (f : feedback) : feedback :=
  Feedback (diagnostics f) (messages f ++ [d]).

(** [FeedbackBookKeeper], 62-82, and [Compilation], engine.rs. *)
Record keeper := Keeper {
  files_with_warnings : list text;
  files_with_errors : list text;
  skipped_files_diagnostics : list (text * diagnostic);
  open_files : list text }.
Definition new_keeper : keeper := Keeper [] [] [] [].
Inductive compilation := Yes (compiled : list text) | No.
(** An [Error]: its [to_diagnostics] and its [skipped_files_diagnostics]. *)
Record error := BuildError { to_diagnostics : list diagnostic; skipped : list (text * diagnostic) }.

(** [unset_errors], 119-126. *)
Definition unset_errors (k : keeper) (f : feedback) : keeper * feedback :=
  (Keeper (files_with_warnings k) [] (skipped_files_diagnostics k) (open_files k),
   fold_left (fun f p => unset_existing_diagnostics p f) (files_with_errors k) f).
(** [unset_skipped_files], 128-132. *)
Definition unset_skipped_files (k : keeper) (f : feedback) : keeper * feedback :=
  (Keeper (files_with_warnings k) (files_with_errors k) [] (open_files k),
   fold_left (fun f p => unset_existing_diagnostics p f) (map fst (skipped_files_diagnostics k)) f).
(** [insert_warning], 182-188. *)
Definition insert_warning (kf : keeper * feedback) (d : diagnostic) : keeper * feedback :=
  let '(k, f) := kf in
  match d_path d with
  | Some p =>
      (Keeper (p :: files_with_warnings k) (files_with_errors k) (skipped_files_diagnostics k) (open_files k),
       append_diagnostic p d f)
  | None => (k, f)
  end.
(** The loop over the compiled modules, 96-101. *)
Definition unset_compiled (kf : keeper * feedback) (p : text) : keeper * feedback :=
  let '(k, f) := kf in
  (Keeper (del p (files_with_warnings k)) (files_with_errors k) (skipped_files_diagnostics k) (open_files k),
   if mem p (files_with_warnings k) then unset_existing_diagnostics p f else f).
(** [response], 88-117. *)
Definition response (k : keeper) (c : compilation) (warnings : list diagnostic) : keeper * feedback :=
  let '(k, f) :=
    match c with
    | Yes compiled =>
        let '(k, f) := fold_left unset_compiled compiled (k, no_feedback) in
        let '(k, f) := unset_errors k f in
        unset_skipped_files k f
    | No => (k, no_feedback)
    end in
  fold_left insert_warning warnings (k, f).

Definition insert_error (kf : keeper * feedback) (d : diagnostic) : keeper * feedback :=
  let '(k, f) := kf in
  match d_path d with
  | Some p =>
      (Keeper (files_with_warnings k) (p :: files_with_errors k) (skipped_files_diagnostics k) (open_files k),
       append_diagnostic p d f)
  | None => (k, append_message d f)
  end.
(** A set is visited once per element. *)
Definition elements (s : list text) : list text :=
  fold_right (fun p s => if mem p s then s else p :: s) [] s.
(** [build_with_error], 140-176. *)
Definition build_with_error (k : keeper) (e : error) (c : compilation) (warnings : list diagnostic) : keeper * feedback :=
  let '(k, f) := response k c warnings in
  let '(k, f) := unset_skipped_files k f in
  let '(k, f) := unset_errors k f in
  let '(k, f) := fold_left insert_error (to_diagnostics e) (k, f) in
  let k := Keeper (files_with_warnings k) (files_with_errors k) (skipped e) (open_files k) in
  (k, fold_left (fun f p => match get p (skipped_files_diagnostics k) with
                            | Some d => append_diagnostic p d f
                            | None => f
                            end) (elements (open_files k)) f).
(** [error], 178-180. *)
Definition report_error (k : keeper) (e : error) : keeper * feedback := build_with_error k e No [].
(** [open_file], 190-197. *)
Definition open_file (k : keeper) (p : text) : keeper * feedback :=
  (Keeper (files_with_warnings k) (files_with_errors k) (skipped_files_diagnostics k) (p :: open_files k),
   match get p (skipped_files_diagnostics k) with
   | Some d => append_diagnostic p d no_feedback
   | None => no_feedback
   end).
(** [close_file], 199-206. *)
Definition close_file (k : keeper) (p : text) : keeper * feedback :=
  (Keeper (files_with_warnings k) (files_with_errors k) (skipped_files_diagnostics k) (del p (open_files k)),
   match get p (skipped_files_diagnostics k) with
   | Some _ => unset_existing_diagnostics p no_feedback
   | None => no_feedback
   end).
