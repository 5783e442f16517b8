(** C32, C33: the diagnostics an editor shows. *)
From Coq Require Import String Ascii NArith Bool List.
From Verif Require Import Text TextProofs Feedback FeedbackSpec FeedbackProofs.
Import ListNotations.
Local Open Scope string_scope.
Local Open Scope list_scope.

(** ** C32 *)
(** After any history the errors shown at a file are those of the last failure there, plus the note
    that it was not checked if it is open; none if a build succeeded since. *)
Theorem C32_errors_are_those_of_the_last_failure : forall evs p, Forall sound_event evs ->
  filter is_error (shown_after evs p) = errors_at p (last_failure evs) (is_open evs p).
Proof. exact errors_shown. Qed.
Print Assumptions C32_errors_are_those_of_the_last_failure.

Theorem C32_none_after_a_successful_build : forall evs compiled ws p,
  Forall sound_event evs -> sound_warnings (Yes compiled) ws ->
  filter is_error (shown_after (evs ++ [Answered (Yes compiled) ws]) p) = [].
Proof.
  intros evs compiled ws p S W. rewrite errors_shown.
  - unfold last_failure. rewrite fold_left_app. reflexivity.
  - apply Forall_app. split; [exact S|]. constructor; [exact W|constructor].
Qed.
Print Assumptions C32_none_after_a_successful_build.

(** The errors without a place are sent as messages, when they occur and only then. *)
Theorem C32_other_errors_are_messages : forall k ev,
  messages (snd (handle k ev)) =
  match ev with
  | Failed e _ _ | Refused e => filter (fun d => match d_path d with None => true | Some _ => false end) (to_diagnostics e)
  | _ => []
  end.
Proof.
  intros k [c ws|e c ws|e|q|q]; cbn [handle].
  - destruct (response_spec k c ws) as (fw & _ & _ & _ & M). exact M.
  - destruct (failure_spec k e c ws) as (fw & fe & _ & _ & _ & _ & M). exact M.
  - destruct (failure_spec k e No []) as (fw & fe & _ & _ & _ & _ & M). exact M.
  - cbn. destruct (get q (skipped_files_diagnostics k)); reflexivity.
  - cbn. destruct (get q (skipped_files_diagnostics k)); reflexivity.
Qed.
Print Assumptions C32_other_errors_are_messages.

Definition one : text := str "src/one.gleam".
Definition two : text := str "src/two.gleam".
Definition warning_in (p : text) : diagnostic := Diagnostic (Some p) Warning 1.
Definition error_in (p : text) : diagnostic := Diagnostic (Some p) Error 2.
Definition not_checked : diagnostic := Diagnostic None Error 3.

(** [one] fails, so [two], which is open, is not checked; then [two] is closed; then [one] is
    fixed. *)
Definition history : list event :=
  [Opened two; Answered (Yes [one; two]) [warning_in one];
   Failed (BuildError [error_in one] [(two, not_checked)]) (Yes []) [];
   Closed two; Answered (Yes [one; two]) []].
Example C32_example :
  Forall sound_event history /\
  shown_after (firstn 2 history) one = [warning_in one] /\
  shown_after (firstn 3 history) one = [error_in one] /\
  shown_after (firstn 3 history) two = [not_checked] /\
  shown_after (firstn 4 history) two = [] /\
  shown_after history one = [].
Proof.
  split; [|vm_compute; repeat split].
  unfold history. repeat (apply Forall_cons); try apply Forall_nil; cbn; try exact I.
  - split; [intros d [<-|[]]; reflexivity|discriminate].
  - split; split.
    + intros d [<-|[]]; reflexivity.
    + intros p d [[= <- <-]|[]]. split; reflexivity.
    + intros d [].
    + discriminate.
  - split; [intros d []|discriminate].
Qed.
(** Errors without a place. *)
Example C32_example_message :
  messages (snd (handle new_keeper (Refused (BuildError [not_checked; error_in one] [])))) = [not_checked].
Proof. reflexivity. Qed.

(** ** C33 *)
(** From a build that compiled a file on, while no error is reported in it and it is not skipped,
    it shows exactly the warnings of its last compilation.  Missing for C33: errors. *)
Theorem C33_warnings_are_kept_partial : forall before compiled ws after p,
  In p compiled -> Forall (fun ev => ~ blames p ev) after ->
  shown_after (before ++ Answered (Yes compiled) ws :: after) p =
  fold_left (step_warnings p) after (filter (located p) ws).
Proof. exact warnings_shown. Qed.
Print Assumptions C33_warnings_are_kept_partial.

(** In particular they stay while it is not compiled. *)
Theorem C33_warnings_stay_partial : forall before compiled ws after p,
  In p compiled ->
  Forall (fun ev => match ev with
                    | Answered c ws' => (forall l, c = Yes l -> ~ In p l) /\ (forall d, In d ws' -> d_path d <> Some p)
                    | Failed e c ws' => (forall l, c = Yes l -> ~ In p l) /\ (forall d, In d ws' -> d_path d <> Some p) /\
                        (forall d, In d (to_diagnostics e) -> d_path d <> Some p) /\ ~ In p (map fst (skipped e))
                    | Refused e => (forall d, In d (to_diagnostics e) -> d_path d <> Some p) /\ ~ In p (map fst (skipped e))
                    | Opened _ | Closed _ => True
                    end) after ->
  shown_after (before ++ Answered (Yes compiled) ws :: after) p = filter (located p) ws.
Proof.
  intros before compiled ws after p Hl T. rewrite warnings_shown; [|exact Hl|].
  - generalize (filter (located p) ws). induction T as [|ev after T1 T2 IH]; intros shown; [reflexivity|]. cbn [fold_left].
    assert (R : forall c ws', (forall l, c = Yes l -> ~ In p l) -> (forall d, In d ws' -> d_path d <> Some p) -> reported p shown c ws' = shown).
    { intros c ws' H1 H2. unfold reported. rewrite no_located by exact H2. destruct c as [l|]; [|reflexivity].
      change (existsb (text_eqb p) l) with (mem p l). rewrite (proj2 (mem_false p l) (H1 l eq_refl)). reflexivity. }
    destruct ev as [c ws'|e c ws'|e|q|q]; cbn [step_warnings]; try apply IH.
    + rewrite R by tauto. apply IH.
    + rewrite R by tauto. apply IH.
  - apply (Forall_impl _) with (2 := T). intros ev H.
    destruct ev as [c ws'|e c ws'|e|q|q]; cbn [blames]; try tauto.
    + intros [(d & Hd & E)|X]; [|tauto]. destruct H as (_ & _ & H & _). exact (H d Hd E).
    + intros [(d & Hd & E)|X]; [|tauto]. destruct H as (H & _). exact (H d Hd E).
Qed.
Print Assumptions C33_warnings_stay_partial.

Example C33_example :
  shown_after [Opened one; Answered (Yes [one; two]) [warning_in one; warning_in two];
               Failed (BuildError [error_in two] []) (Yes []) []; Closed one; Answered (Yes [two]) []] one = [warning_in one] /\
  shown_after [Answered (Yes [one]) [warning_in one]; Answered (Yes [one]) []] one = [].
Proof. split; reflexivity. Qed.

(** C33 fails: a request that fails with an error in the file, say formatting it, hides the warnings, and
    the next build takes the error away though it compiles nothing. *)
Theorem C33_refuted_by_failed_request : exists evs,
  Forall sound_event evs /\
  (forall ev, In ev evs -> match ev with Answered (Yes l) _ => l = [] \/ ev = Answered (Yes [one]) [warning_in one] | Failed _ _ _ => False | _ => True end) /\
  shown_after (firstn 1 evs) one = [warning_in one] /\ shown_after evs one = [].
Proof.
  exists [Answered (Yes [one]) [warning_in one]; Refused (BuildError [error_in one] []); Answered (Yes []) []].
  split; [|split; [|split; reflexivity]].
  - repeat (apply Forall_cons); try apply Forall_nil; cbn.
    + split; [intros d [<-|[]]; reflexivity|discriminate].
    + split; [intros d [<-|[]]; reflexivity|intros p d []].
    + split; [intros d []|discriminate].
  - intros ev [<-|[<-|[<-|[]]]]; auto.
Qed.
Print Assumptions C33_refuted_by_failed_request.

(** C33 fails: closing a file that was not checked hides its warnings. *)
Theorem C33_refuted_by_skipped_files : exists evs,
  Forall sound_event evs /\ (forall c ws, In (Answered c ws) (skipn 1 evs) -> False) /\ (forall e l ws, In (Failed e (Yes l) ws) evs -> l = []) /\
  shown_after (firstn 1 evs) two = [warning_in two] /\ shown_after (firstn 2 evs) two = [warning_in two] /\ shown_after evs two = [].
Proof.
  exists [Answered (Yes [one; two]) [warning_in two]; Failed (BuildError [error_in one] [(two, not_checked)]) (Yes []) []; Closed two].
  split; [|split; [|split; [|repeat split; reflexivity]]].
  - repeat (apply Forall_cons); try apply Forall_nil; cbn; try exact I.
    + split; [intros d [<-|[]]; reflexivity|discriminate].
    + split; split; [intros d [<-|[]]; reflexivity| |intros d []|discriminate].
      intros p d [[= <- <-]|[]]. split; reflexivity.
  - intros c ws [X|[X|[]]]; discriminate.
  - intros e l ws [X|[X|[X|[]]]]; congruence.
Qed.
Print Assumptions C33_refuted_by_skipped_files.
