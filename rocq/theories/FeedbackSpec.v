(** What the editor shows after a history of events. *)
From Coq Require Import NArith Bool List.
From Verif Require Import Text Feedback.
Import ListNotations.

(** What the server does: answers a request that may have compiled, reports a failed build, reports
    a failed request, opens or closes a file. *)
Inductive event :=
  | Answered (c : compilation) (warnings : list diagnostic)
  | Failed (e : error) (c : compilation) (warnings : list diagnostic)
  | Refused (e : error)
  | Opened (p : text)
  | Closed (p : text).
Definition handle (k : keeper) (ev : event) : keeper * feedback :=
  match ev with
  | Answered c ws => response k c ws
  | Failed e c ws => build_with_error k e c ws
  | Refused e => report_error k e
  | Opened p => open_file k p
  | Closed p => close_file k p
  end.

(** An editor replaces the diagnostics of the files that are sent (publishDiagnostics). *)
Definition display := text -> list diagnostic.
Definition publish (f : feedback) (shown : display) : display :=
  fun p => match get p (diagnostics f) with Some ds => ds | None => shown p end.
Fixpoint run (evs : list event) (k : keeper) (shown : display) : keeper * display :=
  match evs with
  | [] => (k, shown)
  | ev :: evs => let '(k, f) := handle k ev in run evs k (publish f shown)
  end.
Definition shown_after (evs : list event) : display := snd (run evs new_keeper (fun _ => [])).

(** ** What should be shown *)
(** The last failure; [None] if a build has succeeded since, or there was none. *)
Definition step_failure (current : option error) (ev : event) : option error :=
  match ev with
  | Answered (Yes _) _ => None
  | Answered No _ => current
  | Failed e _ _ => Some e
  | Refused e => Some e
  | Opened _ | Closed _ => current
  end.
Definition last_failure (evs : list event) : option error := fold_left step_failure evs None.
Definition is_open (evs : list event) (p : text) : bool :=
  fold_left (fun o ev => match ev with
                         | Opened p' => if text_eqb p p' then true else o
                         | Closed p' => if text_eqb p p' then false else o
                         | _ => o
                         end) evs false.
Definition located (p : text) (d : diagnostic) : bool :=
  match d_path d with Some p' => text_eqb p p' | None => false end.
Definition is_error (d : diagnostic) : bool := match d_level d with Error => true | Warning => false end.
Definition errors_at (p : text) (failure : option error) (open : bool) : list diagnostic :=
  match failure with
  | None => []
  | Some e =>
      filter (located p) (to_diagnostics e) ++
      (if open then match get p (skipped e) with Some d => [d] | None => [] end else [])
  end.

(** Events as the server makes them: warnings are only there after a compilation (engine.rs
    1267-1284) and have the level of warnings; the diagnostics of an error have the level of errors;
    a file that was skipped has no error of its own (error.rs 992-1045). *)
Definition sound_error (e : error) : Prop :=
  (forall d, In d (to_diagnostics e) -> is_error d = true) /\
  (forall p d, In (p, d) (skipped e) -> is_error d = true /\ filter (located p) (to_diagnostics e) = []).
Definition sound_warnings (c : compilation) (ws : list diagnostic) : Prop :=
  (forall d, In d ws -> is_error d = false) /\ (c = No -> ws = []).
Definition sound_event (ev : event) : Prop :=
  match ev with
  | Answered c ws => sound_warnings c ws
  | Failed e c ws => sound_error e /\ sound_warnings c ws
  | Refused e => sound_error e
  | Opened _ | Closed _ => True
  end.

(** The event says that [p] has an error, or that it was skipped. *)
Definition blames (p : text) (ev : event) : Prop :=
  let error_blames e := (exists d, In d (to_diagnostics e) /\ d_path d = Some p) \/ In p (map fst (skipped e)) in
  match ev with
  | Answered _ _ => False
  | Failed e _ _ => error_blames e
  | Refused e => error_blames e
  | Opened _ | Closed _ => False
  end.
(** The warnings of [p]: those of the last event that compiled it or reported some. *)
Definition reported (p : text) (shown : list diagnostic) (c : compilation) (ws : list diagnostic) : list diagnostic :=
  match filter (located p) ws with
  | [] => match c with
          | Yes l => if existsb (text_eqb p) l then [] else shown
          | No => shown
          end
  | found => found
  end.
Definition step_warnings (p : text) (shown : list diagnostic) (ev : event) : list diagnostic :=
  match ev with
  | Answered c ws => reported p shown c ws
  | Failed _ c ws => reported p shown c ws
  | Refused _ | Opened _ | Closed _ => shown
  end.
