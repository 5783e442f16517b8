(** Proofs about the pretty printer model. *)
From Coq Require Import String Ascii ZArith List Bool Lia.
From Verif Require Import Pretty PrettySpec.
Import ListNotations.
Open Scope string_scope.
Open Scope Z_scope.

Lemma dsize_pos d : (1 <= dsize d)%nat.
Proof. destruct d; simpl; lia. Qed.

Ltac break_match :=
  match goal with
  | |- context [match ?x with _ => _ end] => destruct x eqn:?
  end.

(** ** Fuel *)

Lemma fits_loop_fuel n : forall m limit w docs,
  (stack_size docs <= n)%nat -> (stack_size docs <= m)%nat ->
  fits_loop n limit w docs = fits_loop m limit w docs /\ fits_loop n limit w docs <> None.
Proof.
  induction n as [|n IH]; intros m limit w docs Hn Hm.
  - destruct docs as [|[[i md] d] docs].
    + simpl. destruct m; simpl; destruct (limit <? w); split; congruence.
    + pose proof (dsize_pos d); simpl in Hn; lia.
  - destruct docs as [|[[i md] d] docs].
    + destruct m; simpl; destruct (limit <? w); split; congruence.
    + pose proof (dsize_pos d). destruct m as [|m]; [simpl in Hm; lia|].
      simpl in Hn, Hm. simpl fits_loop.
      destruct (limit <? w); [split; congruence|].
      destruct d; repeat match goal with
        | |- context [match ?x with _ => _ end] => destruct x
        end;
      try (split; congruence);
      apply IH; simpl in *; lia.
Qed.

Lemma fits_eq n limit w docs : (stack_size docs <= n)%nat ->
  fits_loop n limit w docs = Some (fits limit w docs).
Proof.
  intros H. unfold fits.
  destruct (fits_loop_fuel n (stack_size docs) limit w docs H (le_n _)) as [-> H2].
  destruct (fits_loop (stack_size docs) limit w docs) eqn:E; auto.
  destruct (fits_loop_fuel (stack_size docs) (stack_size docs) limit w docs (le_n _) (le_n _)).
  congruence.
Qed.

Lemma format_loop_fuel n : forall m limit l w docs,
  (stack_size docs <= n)%nat -> (stack_size docs <= m)%nat ->
  format_loop n limit l w docs = format_loop m limit l w docs
  /\ format_loop n limit l w docs <> None.
Proof.
  assert (Emit : forall e a b, a = b /\ a <> None -> emit e a = emit e b /\ emit e a <> None).
  { intros e a b [-> H]. split; auto. destruct b; simpl; congruence. }
  induction n as [|n IH]; intros m limit l w docs Hn Hm.
  - destruct docs as [|[[i md] d] docs].
    + destruct m; simpl; split; congruence.
    + pose proof (dsize_pos d); simpl in Hn; lia.
  - destruct docs as [|[[i md] d] docs].
    + destruct m; simpl; split; congruence.
    + pose proof (dsize_pos d). destruct m as [|m]; [simpl in Hm; lia|].
      simpl in Hn, Hm. simpl format_loop.
      destruct d; repeat match goal with
        | |- context [match ?x with _ => _ end] => destruct x
        end;
      repeat apply Emit;
      apply IH; simpl in *; lia.
Qed.

Lemma format_eq n limit l w docs : (stack_size docs <= n)%nat ->
  format_loop n limit l w docs = Some (format limit l w docs).
Proof.
  intros H. unfold format.
  destruct (format_loop_fuel n (stack_size docs) limit l w docs H (le_n _)) as [-> H2].
  destruct (format_loop (stack_size docs) limit l w docs) eqn:E; auto.
  destruct (format_loop_fuel (stack_size docs) (stack_size docs) limit l w docs (le_n _) (le_n _)).
  congruence.
Qed.

(** ** One step of each loop *)

Definition fits_step (limit w : Z) (i : Z) (m : mode) (d : doc) (docs : list item) : bool :=
  match d with
  | ForceBroken d =>
      match m with ForcedBroken => fits limit w ((i, m, d) :: docs) | _ => false end
  | Line _ => true
  | Nest j nm IfBroken d => fits limit w ((i, m, d) :: docs)
  | Nest j nm Always d => fits limit w ((new_indent i j nm, m, d) :: docs)
  | Group d => fits limit w ((i, match m with Broken => Unbroken | _ => m end, d) :: docs)
  | Str _ g | EcoString _ g => fits limit (w + g) docs
  | ZeroWidthString _ | ZeroWidthStr _ | CursorPositionObserver _ | Empty => fits limit w docs
  | Break _ un _ =>
      match m with
      | Broken | ForcedBroken => true
      | Unbroken | ForcedUnbroken => fits limit (w + slen un) docs
      end
  | NextBreakFits d NBFDisabled => fits limit w ((i, ForcedUnbroken, d) :: docs)
  | NextBreakFits d NBFEnabled =>
      fits limit w ((i, match m with ForcedUnbroken => m | _ => ForcedBroken end, d) :: docs)
  | Join a b => fits limit w ((i, m, a) :: (i, m, b) :: docs)
  | Join3 a b c => fits limit w ((i, m, a) :: (i, m, b) :: (i, m, c) :: docs)
  | Join4 a b c d => fits limit w ((i, m, a) :: (i, m, b) :: (i, m, c) :: (i, m, d) :: docs)
  end.

Lemma fits_nil limit w : fits limit w [] = negb (limit <? w).
Proof. unfold fits; simpl. destruct (limit <? w); auto. Qed.

Lemma fits_cons limit w i m d docs :
  fits limit w ((i, m, d) :: docs) =
  if limit <? w then false else fits_step limit w i m d docs.
Proof.
  assert (H : fits_loop (S (stack_size ((i, m, d) :: docs))) limit w ((i, m, d) :: docs)
              = Some (fits limit w ((i, m, d) :: docs))) by (apply fits_eq; lia).
  assert (G : forall w' dd, (stack_size dd <= stack_size ((i, m, d) :: docs))%nat ->
     fits_loop (stack_size ((i, m, d) :: docs)) limit w' dd = Some (fits limit w' dd))
    by (intros; now apply fits_eq).
  remember (stack_size ((i, m, d) :: docs)) as n eqn:Hn.
  simpl in H. destruct (limit <? w) eqn:E; [congruence|].
  simpl in Hn. unfold fits_step.
  destruct d; simpl in Hn;
    repeat match goal with
      | x : nest_condition |- _ => destruct x
      | x : next_break_fits_mode |- _ => destruct x
      | x : mode |- _ => destruct x
      end;
    try (injection H; intros; subst; reflexivity);
    try (rewrite G in H by (simpl; lia); congruence);
    injection H; intros <-; reflexivity.
Qed.

Definition format_step (limit l w : Z) (i : Z) (m : mode) (d : doc) (docs : list item)
  : list event :=
  match d with
  | Line n =>
      Write (newlines n) :: Write (spaces i) :: format limit (l + Z.of_nat n) i docs
  | Break br un Flex =>
      if match m with Unbroken => true | _ => fits limit (w + slen un) docs end
      then Write un :: format limit l (w + slen un) docs
      else Write br :: Write (newlines 1) :: Write (spaces i) :: format limit (l + 1) i docs
  | Break br un Strict =>
      match m with
      | Broken | ForcedBroken =>
          Write br :: Write (newlines 1) :: Write (spaces i) :: format limit (l + 1) i docs
      | Unbroken | ForcedUnbroken => Write un :: format limit l (w + slen un) docs
      end
  | EcoString s g | Str s g => Write s :: format limit l (w + g) docs
  | ZeroWidthString s | ZeroWidthStr s => Write s :: format limit l w docs
  | Join a b => format limit l w ((i, m, a) :: (i, m, b) :: docs)
  | Join3 a b c => format limit l w ((i, m, a) :: (i, m, b) :: (i, m, c) :: docs)
  | Join4 a b c d =>
      format limit l w ((i, m, a) :: (i, m, b) :: (i, m, c) :: (i, m, d) :: docs)
  | Nest j nm c d =>
      match c, m with
      | Always, _ | IfBroken, Broken => format limit l w ((new_indent i j nm, m, d) :: docs)
      | _, _ => format limit l w ((i, m, d) :: docs)
      end
  | Group d =>
      if fits limit w [(i, Unbroken, d)]
      then format limit l w ((i, Unbroken, d) :: docs)
      else format limit l w ((i, Broken, d) :: docs)
  | ForceBroken d | NextBreakFits d _ => format limit l w ((i, m, d) :: docs)
  | CursorPositionObserver id => Observe id l w :: format limit l w docs
  | Empty => format limit l w docs
  end.

Lemma format_nil limit l w : format limit l w [] = [].
Proof. reflexivity. Qed.

Lemma format_cons limit l w i m d docs :
  format limit l w ((i, m, d) :: docs) = format_step limit l w i m d docs.
Proof.
  assert (H : format_loop (S (stack_size ((i, m, d) :: docs))) limit l w ((i, m, d) :: docs)
              = Some (format limit l w ((i, m, d) :: docs))) by (apply format_eq; lia).
  assert (G : forall l' w' dd, (stack_size dd <= stack_size ((i, m, d) :: docs))%nat ->
     format_loop (stack_size ((i, m, d) :: docs)) limit l' w' dd = Some (format limit l' w' dd))
    by (intros; now apply format_eq).
  remember (stack_size ((i, m, d) :: docs)) as n eqn:Hn.
  simpl in H. simpl in Hn. unfold format_step.
  destruct d; simpl in Hn;
    repeat match goal with
      | x : nest_condition |- _ => destruct x
      | x : break_kind |- _ => destruct x
      end;
    try (rewrite G in H by (simpl; lia); simpl in H; congruence);
    try (destruct m; rewrite G in H by (simpl; lia); simpl in H; congruence);
    try (match type of H with (if ?x then _ else _) = _ => destruct x end;
         rewrite G in H by (simpl; lia); simpl in H; congruence).
Qed.

(** ** fits against its specification *)

Lemma slen_nonneg s : 0 <= slen s.
Proof. unfold slen; lia. Qed.

Lemma then_assoc x y z : then_ (then_ x y) z = then_ x (then_ y z).
Proof.
  destruct x as [a []], y as [b []], z as [c e]; simpl; auto.
  f_equal; lia.
Qed.

Lemma then_nil x : then_ x (0, AtEnd) = x.
Proof. destruct x as [a []]; simpl; auto; f_equal; lia. Qed.

Lemma lead_nonneg d : widths_ok d -> forall m, 0 <= fst (lead m d).
Proof.
  assert (T : forall x y : Z * ending, 0 <= fst x -> 0 <= fst y -> 0 <= fst (then_ x y)).
  { intros [a []] [b e]; simpl; lia. }
  induction d; intros W md; simpl in *; try (now (destruct md; apply IHd));
    try (destruct m; destruct md; apply IHd; auto; fail);
    try (apply T; [now apply IHd1 | now apply IHd2]); try lia.
  - destruct md; simpl; try lia. now apply IHd.
  - destruct md; simpl; try lia; apply slen_nonneg.
  - apply T; [now apply IHd1|apply T; [now apply IHd2|now apply IHd3]].
  - apply T; [now apply IHd1|apply T; [now apply IHd2|apply T; [now apply IHd3|now apply IHd4]]].
Qed.

Lemma lead_all_nonneg docs : widths_ok_all docs -> 0 <= fst (lead_all docs).
Proof.
  induction docs as [|[[i m] d] docs IH]; simpl; [lia|].
  intros [W1 W2]. pose proof (lead_nonneg d W1 m). specialize (IH W2).
  destruct (lead m d) as [a []]; simpl in *; lia.
Qed.

Lemma fits_ltb limit w docs : limit < w -> fits limit w docs = false.
Proof.
  intros H. destruct docs as [|[[i m] d] docs].
  - rewrite fits_nil. destruct (limit <? w) eqn:E; auto; apply Z.ltb_ge in E; lia.
  - rewrite fits_cons. destruct (limit <? w) eqn:E; auto; apply Z.ltb_ge in E; lia.
Qed.

Lemma lead_all_cons i m d docs : lead_all ((i, m, d) :: docs) = then_ (lead m d) (lead_all docs).
Proof. reflexivity. Qed.

Lemma fits_lead limit : forall n docs w, (stack_size docs <= n)%nat -> widths_ok_all docs ->
  (fits limit w docs = true <-> fits_after limit w (lead_all docs)).
Proof.
  unfold fits_after.
  induction n as [|n IH]; intros docs w Hn W.
  - destruct docs as [|[[i m] d] docs]; [|pose proof (dsize_pos d); simpl in Hn; lia].
    rewrite fits_nil. simpl. destruct (limit <? w) eqn:E; simpl.
    + apply Z.ltb_lt in E. split; [discriminate|lia].
    + apply Z.ltb_ge in E. split; auto. intros _; split; [lia|discriminate].
  - destruct docs as [|[[i m] d] docs].
    { rewrite fits_nil. simpl. destruct (limit <? w) eqn:E; simpl.
      + apply Z.ltb_lt in E. split; [discriminate|lia].
      + apply Z.ltb_ge in E. split; auto. intros _; split; [lia|discriminate]. }
    rewrite fits_cons. destruct (limit <? w) eqn:E.
    { apply Z.ltb_lt in E. pose proof (lead_all_nonneg _ W). split; [discriminate|lia]. }
    apply Z.ltb_ge in E.
    rewrite lead_all_cons.
    pose proof (dsize_pos d). simpl in Hn. destruct W as [W1 W2].
    destruct d; simpl in *;
    repeat match goal with
      | x : nest_condition |- _ => destruct x
      | x : next_break_fits_mode |- _ => destruct x
      end;
    try (destruct m; simpl;
         solve [ split; [discriminate|intros [_ G]; congruence]
               | split; auto; intros _; split; [lia|discriminate]
               | rewrite IH by (simpl; try lia; tauto); rewrite ?lead_all_cons; simpl; tauto
               | rewrite IH by (simpl; try lia; tauto);
                 split; intros [G1 G2]; split; auto; lia ]);
    try solve [ rewrite IH by (simpl; try lia; tauto); rewrite ?lead_all_cons, ?then_assoc; tauto
               | split; auto; intros _; split; [lia|discriminate]
               | rewrite IH by (simpl; try lia; tauto);
                 split; intros [G1 G2]; split; auto; lia ].
Qed.

Lemma fits_spec limit w docs : widths_ok_all docs ->
  (fits limit w docs = true <-> fits_after limit w (lead_all docs)).
Proof. intros. eapply fits_lead; eauto. Qed.

Lemma fits_group limit w i m d : widths_ok d ->
  (fits limit w [(i, m, d)] = true <-> fits_after limit w (lead m d)).
Proof.
  intros W. rewrite fits_spec by (simpl; tauto). simpl. now rewrite then_nil.
Qed.

(** ** format produces a layout *)

Fixpoint events_of (l w : Z) (ps : list piece) : list event :=
  match ps with
  | [] => []
  | PText s g :: ps => Write s :: events_of l (w + g) ps
  | PNewline n i :: ps =>
      Write (newlines n) :: Write (spaces i) :: events_of (l + Z.of_nat n) i ps
  | PObserver id :: ps => Observe id l w :: events_of l w ps
  end.

Lemma events_of_app ps : forall l w qs,
  events_of l w (ps ++ qs)
  = (events_of l w ps ++ events_of (fst (cursor l w ps)) (snd (cursor l w ps)) qs)%list.
Proof.
  induction ps as [|[] ps IH]; intros; simpl; auto; rewrite IH; auto.
Qed.

Lemma cursor_app ps : forall l w qs,
  cursor l w (ps ++ qs) = cursor (fst (cursor l w ps)) (snd (cursor l w ps)) qs.
Proof. induction ps as [|[] ps IH]; intros; simpl; auto. Qed.

Definition bmode (b : bool) : mode := if b then Broken else Unbroken.

Definition formats_as limit l w i b d docs ps :=
  layout b i d ps /\
  format limit l w ((i, bmode b, d) :: docs)
  = (events_of l w ps ++ format limit (fst (cursor l w ps)) (snd (cursor l w ps)) docs)%list.

Lemma format_layout limit d : forall l w i b docs,
  exists ps, formats_as limit l w i b d docs ps.
Proof.
  unfold formats_as.
  induction d; intros l w j b docs.
  - exists [PNewline n j]. split; [constructor|]. rewrite format_cons. reflexivity.
  - destruct (IHd l w j b docs) as (ps & L & E). exists ps. split; [now constructor|].
    rewrite format_cons. exact E.
  - destruct (IHd l w j b docs) as (ps & L & E). exists ps. split; [now constructor|].
    rewrite format_cons. exact E.
  - destruct kind.
    + destruct b.
      * rewrite format_cons. simpl.
        destruct (fits limit (w + slen unbroken) docs) eqn:F.
        -- exists [PText unbroken (slen unbroken)]. split; [constructor|]. reflexivity.
        -- exists [PText broken (slen broken); PNewline 1 j]. split; [constructor|]. reflexivity.
      * exists [PText unbroken (slen unbroken)]. split; [constructor|].
        rewrite format_cons. reflexivity.
    + destruct b.
      * exists [PText broken (slen broken); PNewline 1 j]. split; [constructor|].
        rewrite format_cons. reflexivity.
      * exists [PText unbroken (slen unbroken)]. split; [constructor|].
        rewrite format_cons. reflexivity.
  - destruct (IHd1 l w j b ((j, bmode b, d2) :: docs)) as (ps & L & E).
    destruct (IHd2 (fst (cursor l w ps)) (snd (cursor l w ps)) j b docs) as (qs & L2 & E2).
    exists (ps ++ qs)%list. split; [now constructor|].
    rewrite format_cons. simpl. rewrite E, E2, events_of_app, cursor_app.
    now rewrite app_assoc.
  - destruct (IHd1 l w j b ((j, bmode b, d2) :: (j, bmode b, d3) :: docs)) as (ps & L & E).
    destruct (IHd2 (fst (cursor l w ps)) (snd (cursor l w ps)) j b ((j, bmode b, d3) :: docs))
      as (qs & L2 & E2).
    rewrite <- cursor_app in E2.
    destruct (IHd3 (fst (cursor l w (ps ++ qs))) (snd (cursor l w (ps ++ qs))) j b docs)
      as (rs & L3 & E3).
    rewrite <- cursor_app in E3.
    exists (ps ++ qs ++ rs)%list. split; [now constructor|].
    rewrite format_cons. simpl. rewrite E, E2, E3.
    rewrite !events_of_app, !cursor_app, <- !app_assoc. reflexivity.
  - destruct (IHd1 l w j b ((j, bmode b, d2) :: (j, bmode b, d3) :: (j, bmode b, d4) :: docs))
      as (ps & L & E).
    destruct (IHd2 (fst (cursor l w ps)) (snd (cursor l w ps)) j b
                ((j, bmode b, d3) :: (j, bmode b, d4) :: docs))
      as (qs & L2 & E2).
    rewrite <- cursor_app in E2.
    destruct (IHd3 (fst (cursor l w (ps ++ qs))) (snd (cursor l w (ps ++ qs))) j b
                ((j, bmode b, d4) :: docs))
      as (rs & L3 & E3).
    rewrite <- cursor_app in E3.
    destruct (IHd4 (fst (cursor l w ((ps ++ qs) ++ rs))) (snd (cursor l w ((ps ++ qs) ++ rs))) j b
                docs) as (ts & L4 & E4).
    rewrite <- cursor_app in E4.
    exists (ps ++ qs ++ rs ++ ts)%list. split; [now constructor|].
    rewrite format_cons. simpl. rewrite E, E2, E3, E4.
    rewrite !events_of_app, !cursor_app, <- !app_assoc. reflexivity.
  - destruct c.
    + destruct (IHd l w (new_indent j i m) b docs) as (ps & L & E).
      exists ps. split; [destruct m; now constructor|].
      rewrite format_cons. destruct b; exact E.
    + destruct b.
      * destruct (IHd l w (new_indent j i m) true docs) as (ps & L & E).
        exists ps. split; [destruct m; now constructor|].
        rewrite format_cons. exact E.
      * destruct (IHd l w j false docs) as (ps & L & E).
        exists ps. split; [now constructor|].
        rewrite format_cons. exact E.
  - rewrite format_cons. simpl.
    destruct (fits limit w [(j, Unbroken, d)]).
    + destruct (IHd l w j false docs) as (ps & L & E).
      exists ps. split; [now apply LyGroup with (b' := false)|]. exact E.
    + destruct (IHd l w j true docs) as (ps & L & E).
      exists ps. split; [now apply LyGroup with (b' := true)|]. exact E.
  - exists [PText s graphemes]. split; [constructor|]. rewrite format_cons. reflexivity.
  - exists [PText s graphemes]. split; [constructor|]. rewrite format_cons. reflexivity.
  - exists [PText s 0]. split; [constructor|]. rewrite format_cons. simpl.
    now rewrite Z.add_0_r.
  - exists [PText s 0]. split; [constructor|]. rewrite format_cons. simpl.
    now rewrite Z.add_0_r.
  - exists [PObserver id]. split; [constructor|]. rewrite format_cons. reflexivity.
  - exists []. split; [constructor|]. rewrite format_cons. reflexivity.
Qed.

Lemma append_assoc_s (a b c : string) : ((a ++ b) ++ c)%string = (a ++ (b ++ c))%string.
Proof. induction a; simpl; congruence. Qed.

Lemma written_app a b : written (a ++ b) = (written a ++ written b)%string.
Proof.
  induction a as [|[] a IH]; simpl; auto.
  rewrite IH, append_assoc_s. reflexivity.
Qed.

Lemma written_events ps : forall l w, written (events_of l w ps) = render ps.
Proof. induction ps as [|[] ps IH]; intros; simpl; auto; rewrite ?IH; auto. Qed.

Lemma observed_app a b : observed (a ++ b) = (observed a ++ observed b)%list.
Proof. induction a as [|[] a IH]; simpl; auto. now rewrite IH. Qed.

Lemma observed_events ps : forall l w, observed (events_of l w ps) = observations l w ps.
Proof. induction ps as [|[] ps IH]; intros; simpl; auto; rewrite ?IH; auto. Qed.

(** ** Flat groups *)

Lemma first_line_app ps : forall qs w,
  (forall n i, ~ In (PNewline n i) ps) ->
  first_line_end w (ps ++ qs) = first_line_end (first_line_end w ps) qs.
Proof.
  induction ps as [|[] ps IH]; intros qs w' H; simpl; auto.
  - apply IH. intros n i G; apply (H n i); now right.
  - exfalso. eapply H; left; reflexivity.
  - apply IH. intros n i G; apply (H n i); now right.
Qed.

Lemma first_line_shift_all ps : forall w, first_line_end w ps = w + first_line_end 0 ps.
Proof.
  induction ps as [|[] ps IH]; intros w'; simpl; try lia.
  - rewrite IH, (IH width). lia.
  - now apply IH.
Qed.

Lemma first_line_shift ps : forall w,
  (forall n i, ~ In (PNewline n i) ps) -> first_line_end w ps = w + first_line_end 0 ps.
Proof. intros; apply first_line_shift_all. Qed.

Lemma soft_flat d : soft d -> forall n i, ~ In (PNewline n i) (flat d).
Proof.
  induction d; simpl; intros S n' i' H;
    repeat (rewrite in_app_iff in H); intuition (try discriminate; eauto).
Qed.

Lemma flat_cursor ps : forall l w, (forall n i, ~ In (PNewline n i) ps) ->
  cursor l w ps = (l, first_line_end w ps).
Proof.
  induction ps as [|[] ps IH]; intros l w' H; simpl; auto.
  - apply IH. intros n i G; apply (H n i); now right.
  - exfalso. eapply H; left; reflexivity.
  - apply IH. intros n i G; apply (H n i); now right.
Qed.

Lemma no_newline_app ps qs : (forall n i, ~ In (PNewline n i) ps) ->
  (forall n i, ~ In (PNewline n i) qs) -> forall n i, ~ In (PNewline n i) (ps ++ qs).
Proof. intros A B n i H. apply in_app_iff in H as [H|H]; [eapply A|eapply B]; eauto. Qed.

Lemma fle_app ps qs : (forall n i, ~ In (PNewline n i) ps) ->
  first_line_end 0 (ps ++ qs) = first_line_end 0 ps + first_line_end 0 qs.
Proof. intros A. rewrite first_line_app, first_line_shift_all by auto. reflexivity. Qed.

Lemma flat_width_join a b : soft a -> soft b ->
  flat_width (Join a b) = flat_width a + flat_width b.
Proof. intros A B. unfold flat_width. simpl. now rewrite fle_app by now apply soft_flat. Qed.

Lemma flat_width_join3 a b c : soft a -> soft b -> soft c ->
  flat_width (Join3 a b c) = flat_width a + (flat_width b + flat_width c).
Proof.
  intros A B C. unfold flat_width. simpl.
  rewrite fle_app by now apply soft_flat. now rewrite fle_app by now apply soft_flat.
Qed.

Lemma flat_width_join4 a b c d : soft a -> soft b -> soft c -> soft d ->
  flat_width (Join4 a b c d) = flat_width a + (flat_width b + (flat_width c + flat_width d)).
Proof.
  intros A B C D. unfold flat_width. simpl.
  rewrite fle_app by now apply soft_flat. rewrite fle_app by now apply soft_flat.
  now rewrite fle_app by now apply soft_flat.
Qed.

Lemma flat_cursor_soft d l w : soft d -> cursor l w (flat d) = (l, w + flat_width d).
Proof.
  intros S. rewrite flat_cursor by now apply soft_flat.
  rewrite first_line_shift_all. reflexivity.
Qed.

Lemma flat_width_nonneg d : soft d -> widths_ok d -> 0 <= flat_width d.
Proof.
  unfold flat_width.
  assert (A : forall ps, (forall s g, In (PText s g) ps -> 0 <= g) -> forall w, 0 <= w ->
     0 <= first_line_end w ps).
  { induction ps as [|[] ps IH]; intros H w Hw; simpl; auto.
    - apply IH; [intros; eapply H; right; eauto|].
      assert (0 <= width) by (eapply H; left; reflexivity). lia.
    - apply IH; auto. intros; eapply H; right; eauto. }
  intros S W. apply A; [|lia].
  clear A. induction d; simpl in *; intros s' g' H;
    repeat (rewrite in_app_iff in H);
    try (destruct H as [H|[]]; inversion H; subst; auto using slen_nonneg; lia);
    intuition eauto.
Qed.

Lemma lead_le_flat d : soft d -> widths_ok d -> forall m,
  fst (lead m d) <= flat_width d /\ snd (lead m d) <> AtForcedBreak.
Proof.
  assert (T : forall x y a b, fst x <= a /\ snd x <> AtForcedBreak ->
     fst y <= b /\ snd y <> AtForcedBreak -> 0 <= b ->
     fst (then_ x y) <= a + b /\ snd (then_ x y) <> AtForcedBreak).
  { intros [p []] [q e] a b; simpl; intuition (try lia; try congruence). }
  induction d; intros S W md; simpl in S, W; simpl lead; try tauto;
    try (split; [unfold flat_width; simpl; lia|discriminate]).
  - change (flat_width (NextBreakFits d m)) with (flat_width d).
    destruct m; destruct md; apply IHd; auto.
  - unfold flat_width; simpl. pose proof (slen_nonneg unbroken).
    destruct md; simpl; split; try lia; discriminate.
  - rewrite flat_width_join by tauto.
    pose proof (flat_width_nonneg d2).
    apply T; [apply IHd1|apply IHd2|]; tauto.
  - rewrite flat_width_join3 by tauto.
    pose proof (flat_width_nonneg d2); pose proof (flat_width_nonneg d3).
    apply T; [apply IHd1; tauto| |intuition lia].
    apply T; [apply IHd2|apply IHd3|]; tauto.
  - rewrite flat_width_join4 by tauto.
    pose proof (flat_width_nonneg d2); pose proof (flat_width_nonneg d3);
    pose proof (flat_width_nonneg d4).
    apply T; [apply IHd1; tauto| |intuition lia].
    apply T; [apply IHd2; tauto| |intuition lia].
    apply T; [apply IHd3|apply IHd4|]; tauto.
  - apply IHd; auto.
  - change (flat_width (Group d)) with (flat_width d). destruct md; apply IHd; auto.
Qed.

Lemma format_flat limit d : forall l w i docs,
  soft d -> widths_ok d -> w + flat_width d <= limit ->
  format limit l w ((i, Unbroken, d) :: docs)
  = (events_of l w (flat d) ++ format limit l (w + flat_width d) docs)%list.
Proof.
  induction d; intros l w j docs S W H; simpl in S, W; try tauto; rewrite format_cons; 
    cbn [format_step flat];
    try (unfold flat_width; simpl; rewrite ?Z.add_0_r; reflexivity).
  - change (flat_width (NextBreakFits d m)) with (flat_width d) in *. now rewrite IHd.
  - unfold flat_width; destruct kind; reflexivity.
  - rewrite flat_width_join in * by tauto.
    pose proof (flat_width_nonneg d1); pose proof (flat_width_nonneg d2).
    rewrite IHd1 by intuition lia. rewrite IHd2 by intuition lia.
    rewrite events_of_app, flat_cursor_soft by tauto. cbn [fst snd].
    now rewrite <- app_assoc, !Z.add_assoc.
  - rewrite flat_width_join3 in * by tauto.
    pose proof (flat_width_nonneg d1); pose proof (flat_width_nonneg d2);
    pose proof (flat_width_nonneg d3).
    rewrite IHd1 by intuition lia. rewrite IHd2 by intuition lia. rewrite IHd3 by intuition lia.
    rewrite !events_of_app, !flat_cursor_soft by tauto. cbn [fst snd].
    rewrite ?flat_cursor_soft by tauto. cbn [fst snd].
    now rewrite <- !app_assoc, !Z.add_assoc.
  - rewrite flat_width_join4 in * by tauto.
    pose proof (flat_width_nonneg d1); pose proof (flat_width_nonneg d2);
    pose proof (flat_width_nonneg d3); pose proof (flat_width_nonneg d4).
    rewrite IHd1 by intuition lia. rewrite IHd2 by intuition lia. rewrite IHd3 by intuition lia.
    rewrite IHd4 by intuition lia.
    rewrite !events_of_app, !flat_cursor_soft by tauto. cbn [fst snd].
    rewrite ?flat_cursor_soft by tauto. cbn [fst snd].
    rewrite ?flat_cursor_soft by tauto. cbn [fst snd].
    now rewrite <- !app_assoc, !Z.add_assoc.
  - change (flat_width (Nest i m c d)) with (flat_width d) in *.
    destruct c; now rewrite IHd.
  - change (flat_width (Group d)) with (flat_width d) in *.
    assert (F : fits limit w [(j, Unbroken, d)] = true).
    { apply fits_group; auto. pose proof (lead_le_flat d S W Unbroken).
      unfold fits_after. intuition lia. }
    rewrite F. now rewrite IHd.
Qed.

Lemma format_group_flat limit d l w i m docs :
  soft d -> widths_ok d -> w + flat_width d <= limit ->
  format limit l w ((i, m, Group d) :: docs)
  = (events_of l w (flat d) ++ format limit l (w + flat_width d) docs)%list.
Proof.
  intros S W H. rewrite format_cons. simpl.
  assert (F : fits limit w [(i, Unbroken, d)] = true).
  { apply fits_group; auto. pose proof (lead_le_flat d S W Unbroken).
    unfold fits_after. intuition lia. }
  rewrite F. now apply format_flat.
Qed.

(** ** The first line of a flat group *)

(** Everything that follows only matters if the line has not ended. *)
Definition ends_line (ps : list piece) : Prop := exists n i, In (PNewline n i) ps.

Lemma first_line_app_end ps qs w : ends_line ps ->
  first_line_end w (ps ++ qs) = first_line_end w ps.
Proof.
  intros (n & i & H). revert w. induction ps as [|p ps IH]; [easy|].
  intros w. destruct H as [->|H]; simpl; auto. destruct p; simpl; auto.
Qed.

(** [first_ok ps x w limit]: reading [ps] from [w]; [x] is the lead of what
    was printed: the pieces agree with the lead. *)
Definition agrees (ps : list piece) (x : Z * ending) : Prop :=
  match snd x with
  | AtEnd => (forall n i, ~ In (PNewline n i) ps) /\ first_line_end 0 ps = fst x
  | AtNewline => ends_line ps /\ first_line_end 0 ps <= fst x
                 /\ (forall w, first_line_end w ps = w + first_line_end 0 ps)
  | AtForcedBreak => True
  end.

Lemma agrees_app ps qs x y : agrees ps x -> (snd x = AtEnd -> agrees qs y) ->
  agrees (ps ++ qs) (then_ x y).
Proof.
  destruct x as [a e]. destruct e; unfold agrees; simpl.
  - intros [N E] Q. specialize (Q eq_refl).
    destruct y as [b f]; simpl in *. destruct f; auto.
    + destruct Q as [N2 E2]. split.
      * intros n i. rewrite in_app_iff. intros [|]; [eapply N|eapply N2]; eauto.
      * rewrite first_line_app by auto. rewrite first_line_shift_all. lia.
    + destruct Q as [(n & i & H) [E2 _]]. split; [|split].
      * exists n, i. apply in_or_app; auto.
      * rewrite first_line_app by auto. rewrite first_line_shift_all. lia.
      * intros; apply first_line_shift_all.
  - intros [H [E S]] _. split; [|split].
    + destruct H as (n & i & H). exists n, i. apply in_or_app; auto.
    + rewrite first_line_app_end by auto. lia.
    + intros; apply first_line_shift_all.
  - auto.
Qed.

(** Modes the checker can be in when the printer is in mode [Unbroken] and there
    is no enabled next-break-fits: both flat. *)
Definition flat_mode (m : mode) := m = Unbroken \/ m = ForcedUnbroken.

Lemma lead_flat_mode d : no_next_break_fits d -> forall m m', flat_mode m -> flat_mode m' ->
  lead m d = lead m' d.
Proof.
  induction d; simpl; intros N md md' H H'; auto;
    try (now (rewrite (IHd N md md'))).
  - destruct H, H'; subst; reflexivity.
  - destruct m; [tauto|reflexivity].
  - destruct H, H'; subst; reflexivity.
  - rewrite (IHd1 (proj1 N) md md'), (IHd2 (proj2 N) md md'); auto.
  - destruct N as (N1 & N2 & N3).
    rewrite (IHd1 N1 md md'), (IHd2 N2 md md'), (IHd3 N3 md md'); auto.
  - destruct N as (N1 & N2 & N3 & N4).
    rewrite (IHd1 N1 md md'), (IHd2 N2 md md'), (IHd3 N3 md md'), (IHd4 N4 md md'); auto.
  - destruct H, H'; subst; simpl; auto; apply IHd; unfold flat_mode; auto.
Qed.

(** Printing in flat mode a document whose lead fits gives pieces agreeing with
    the lead.  Needed: nested groups reached before the line ends fit too. *)
Lemma format_agrees limit d : forall l w i docs,
  no_next_break_fits d -> widths_ok d -> fits_after limit w (lead Unbroken d) ->
  exists ps, formats_as limit l w i false d docs ps /\ agrees ps (lead Unbroken d).
Proof.
  induction d; intros l w j docs N W F;
    try (destruct (format_layout limit (Line n) l w j false docs) as (ps & P);
         exists ps; split; [exact P|destruct P as [P _]; inversion P; subst];
         unfold agrees, ends_line; simpl; eauto 10; fail).
  - exists [PNewline n j]. split.
    + split; [constructor|]. rewrite format_cons. reflexivity.
    + unfold agrees; simpl. split; [|split; [lia|intros; lia]]. exists n, j; now left.
  - exfalso. destruct F as [_ F]. now apply F.
  - simpl in N. destruct m; [tauto|].
    simpl in F. rewrite (lead_flat_mode d N ForcedUnbroken Unbroken) in F
      by (unfold flat_mode; auto).
    destruct (IHd l w j docs N W F) as (ps & [L E] & A).
    exists ps. split.
    + split; [now constructor|]. rewrite format_cons. exact E.
    + simpl. rewrite (lead_flat_mode d N ForcedUnbroken Unbroken); unfold flat_mode; auto.
  - exists [PText unbroken (slen unbroken)]. split.
    + split; [constructor|]. rewrite format_cons. destruct kind; reflexivity.
    + unfold agrees; simpl. split; auto. intros n i [H|[]]; discriminate.
  - simpl in F, N, W. destruct N as [N1 N2], W as [W1 W2].
    assert (F1 : fits_after limit w (lead Unbroken d1)).
    { unfold fits_after in *. pose proof (lead_nonneg d2 W2 Unbroken).
      destruct (lead Unbroken d1) as [a []]; simpl in *; intuition (try lia; try congruence). }
    destruct (IHd1 l w j ((j, Unbroken, d2) :: docs) N1 W1 F1) as (ps & [L E] & A).
    destruct (snd (lead Unbroken d1)) eqn:Eend.
    + assert (F2 : fits_after limit (snd (cursor l w ps)) (lead Unbroken d2)).
      { unfold agrees in A. rewrite Eend in A. destruct A as [A1 A2].
        rewrite flat_cursor by auto. simpl. rewrite first_line_shift_all, A2.
        unfold fits_after in *. destruct (lead Unbroken d1) as [a e]; simpl in *. subst e.
        simpl in F. intuition lia. }
      destruct (IHd2 (fst (cursor l w ps)) (snd (cursor l w ps)) j docs N2 W2 F2)
        as (qs & [L2 E2] & A2).
      exists (ps ++ qs)%list. split.
      * split; [now constructor|]. rewrite format_cons. simpl.
        change Unbroken with (bmode false) in *.
        rewrite E, E2, events_of_app, cursor_app. now rewrite app_assoc.
      * simpl. apply agrees_app; auto.
    + destruct (format_layout limit d2 (fst (cursor l w ps)) (snd (cursor l w ps)) j false docs)
        as (qs & L2 & E2).
      exists (ps ++ qs)%list. split.
      * split; [now constructor|]. rewrite format_cons. simpl.
        change Unbroken with (bmode false) in *.
        rewrite E, E2, events_of_app, cursor_app. now rewrite app_assoc.
      * simpl. apply agrees_app; auto. rewrite Eend. discriminate.
    + exfalso. destruct F1; congruence.
  - (* Join3 as two joins *)
    simpl in F, N, W. destruct N as (N1 & N2 & N3), W as (W1 & W2 & W3).
    assert (F1 : fits_after limit w (lead Unbroken d1)).
    { unfold fits_after in *.
      pose proof (lead_nonneg d2 W2 Unbroken). pose proof (lead_nonneg d3 W3 Unbroken).
      destruct (lead Unbroken d1) as [a []], (lead Unbroken d2) as [b []]; simpl in *;
        intuition (try lia; try congruence). }
    destruct (IHd1 l w j ((j, Unbroken, d2) :: (j, Unbroken, d3) :: docs) N1 W1 F1)
      as (ps & [L E] & A).
    assert (Q : exists qs rs, layout false j d2 qs /\ layout false j d3 rs
       /\ (snd (lead Unbroken d1) = AtEnd ->
           agrees (qs ++ rs) (then_ (lead Unbroken d2) (lead Unbroken d3)))
       /\ format limit (fst (cursor l w ps)) (snd (cursor l w ps))
            ((j, Unbroken, d2) :: (j, Unbroken, d3) :: docs)
          = (events_of (fst (cursor l w ps)) (snd (cursor l w ps)) (qs ++ rs)
             ++ format limit (fst (cursor l w (ps ++ qs ++ rs)))
                              (snd (cursor l w (ps ++ qs ++ rs))) docs)%list).
    { set (l1 := fst (cursor l w ps)). set (w1 := snd (cursor l w ps)).
      destruct (snd (lead Unbroken d1)) eqn:Eend.
      - assert (F2' : fits_after limit w1 (then_ (lead Unbroken d2) (lead Unbroken d3))).
        { unfold agrees in A. rewrite Eend in A. destruct A as [A1 A2].
          subst w1. rewrite flat_cursor by auto. simpl. rewrite first_line_shift_all, A2.
          unfold fits_after in *. destruct (lead Unbroken d1) as [a e]; simpl in *. subst e.
          simpl in F. intuition lia. }
        assert (F2 : fits_after limit w1 (lead Unbroken d2)).
        { unfold fits_after in *. pose proof (lead_nonneg d3 W3 Unbroken).
          destruct (lead Unbroken d2) as [a []]; simpl in *; intuition (try lia; try congruence). }
        destruct (IHd2 l1 w1 j ((j, Unbroken, d3) :: docs) N2 W2 F2) as (qs & [L2 E2] & A2).
        destruct (snd (lead Unbroken d2)) eqn:Eend2.
        + assert (F3 : fits_after limit (snd (cursor l1 w1 qs)) (lead Unbroken d3)).
          { unfold agrees in A2. rewrite Eend2 in A2. destruct A2 as [A21 A22].
            rewrite flat_cursor by auto. simpl. rewrite first_line_shift_all, A22.
            unfold fits_after in *. destruct (lead Unbroken d2) as [a e]; simpl in *. subst e.
            simpl in F2'. intuition lia. }
          destruct (IHd3 (fst (cursor l1 w1 qs)) (snd (cursor l1 w1 qs)) j docs N3 W3 F3)
            as (rs & [L3 E3] & A3).
          exists qs, rs. repeat split; auto.
          * intros _. apply agrees_app; auto.
          * change Unbroken with (bmode false) in *.
            rewrite E2, E3, events_of_app, !cursor_app. subst l1 w1. now rewrite app_assoc.
        + destruct (format_layout limit d3 (fst (cursor l1 w1 qs)) (snd (cursor l1 w1 qs))
                      j false docs) as (rs & L3 & E3).
          exists qs, rs. repeat split; auto.
          * intros _. apply agrees_app; auto. rewrite Eend2; discriminate.
          * change Unbroken with (bmode false) in *.
            rewrite E2, E3, events_of_app, !cursor_app. subst l1 w1. now rewrite app_assoc.
        + exfalso. destruct F2; congruence.
      - destruct (format_layout limit d2 l1 w1 j false ((j, Unbroken, d3) :: docs))
          as (qs & L2 & E2).
        destruct (format_layout limit d3 (fst (cursor l1 w1 qs)) (snd (cursor l1 w1 qs))
                      j false docs) as (rs & L3 & E3).
        exists qs, rs. repeat split; auto; try discriminate.
        change Unbroken with (bmode false) in *.
        rewrite E2, E3, events_of_app, !cursor_app. subst l1 w1. now rewrite app_assoc.
      - exfalso. destruct F1; congruence. }
    destruct Q as (qs & rs & L2 & L3 & AQ & EQ).
    exists (ps ++ qs ++ rs)%list. split.
    + split; [now constructor|]. rewrite format_cons. simpl.
      change Unbroken with (bmode false) in *.
      rewrite E, EQ. rewrite (events_of_app ps). now rewrite app_assoc.
    + simpl. apply agrees_app; auto.
  - (* Join4 *)
    simpl in F, N, W. destruct N as (N1 & N2 & N3 & N4), W as (W1 & W2 & W3 & W4).
    pose proof (lead_nonneg d2 W2 Unbroken) as P2. pose proof (lead_nonneg d3 W3 Unbroken) as P3.
    pose proof (lead_nonneg d4 W4 Unbroken) as P4.
    assert (F1 : fits_after limit w (lead Unbroken d1)).
    { unfold fits_after in *.
      destruct (lead Unbroken d1) as [a []], (lead Unbroken d2) as [b []],
        (lead Unbroken d3) as [c []]; simpl in *; intuition (try lia; try congruence). }
    destruct (IHd1 l w j ((j, Unbroken, d2) :: (j, Unbroken, d3) :: (j, Unbroken, d4) :: docs)
                N1 W1 F1) as (ps & [L E] & A).
    (* generic continuation step *)
    assert (Step : forall d (IH : forall l w i docs,
        no_next_break_fits d -> widths_ok d -> fits_after limit w (lead Unbroken d) ->
        exists ps, formats_as limit l w i false d docs ps /\ agrees ps (lead Unbroken d)),
        no_next_break_fits d -> widths_ok d -> forall l0 w0 docs0 (b : bool),
        (b = true -> fits_after limit w0 (lead Unbroken d)) ->
        exists qs, formats_as limit l0 w0 j false d docs0 qs
                   /\ (b = true -> agrees qs (lead Unbroken d))).
    { intros d IH Nd Wd l0 w0 docs0 [] Hb.
      - destruct (IH l0 w0 j docs0 Nd Wd (Hb eq_refl)) as (qs & P & Q). eauto.
      - destruct (format_layout limit d l0 w0 j false docs0) as (qs & P).
        exists qs; split; [exact P|discriminate]. }
    set (at_end := fun x : Z * ending => match snd x with AtEnd => true | _ => false end).
    assert (Cur : forall (qs : list piece) (x y : Z * ending) l0 w0,
       agrees qs x -> at_end x = true -> fits_after limit w0 (then_ x y) ->
       fits_after limit (snd (cursor l0 w0 qs)) y).
    { intros qs [a e] y l0 w0 Ag Ae Ft. unfold at_end in Ae; simpl in Ae. destruct e; try discriminate.
      unfold agrees in Ag; simpl in Ag. destruct Ag as [A1 A2].
      rewrite flat_cursor by auto. simpl. rewrite first_line_shift_all, A2.
      unfold fits_after in *. simpl in *. intuition lia. }
    assert (Weak : forall w0 x y, 0 <= fst y -> fits_after limit w0 (then_ x y) ->
                    fits_after limit w0 x).
    { intros w0 [a []] [b e] Hy; unfold fits_after; simpl in *; intuition (try lia; congruence). }
    assert (P34 : 0 <= fst (then_ (lead Unbroken d3) (lead Unbroken d4))).
    { destruct (lead Unbroken d3) as [a []]; simpl in *; lia. }
    set (l1 := fst (cursor l w ps)) in *. set (w1 := snd (cursor l w ps)) in *.
    destruct (Step d2 IHd2 N2 W2 l1 w1 ((j, Unbroken, d3) :: (j, Unbroken, d4) :: docs)
                (at_end (lead Unbroken d1))) as (qs & [L2 E2] & A2).
    { intros B. eapply Weak; [exact P34|]. apply (Cur ps (lead Unbroken d1)); auto. }
    set (l2 := fst (cursor l1 w1 qs)) in *. set (w2 := snd (cursor l1 w1 qs)) in *.
    destruct (Step d3 IHd3 N3 W3 l2 w2 ((j, Unbroken, d4) :: docs)
                (at_end (lead Unbroken d1) && at_end (lead Unbroken d2))%bool)
      as (rs & [L3 E3] & A3).
    { intros B. apply andb_prop in B as [B1 B2]. eapply Weak; [exact P4|].
      apply (Cur qs (lead Unbroken d2)); auto; apply (Cur ps (lead Unbroken d1)); auto. }
    set (l3 := fst (cursor l2 w2 rs)) in *. set (w3 := snd (cursor l2 w2 rs)) in *.
    destruct (Step d4 IHd4 N4 W4 l3 w3 docs
                (at_end (lead Unbroken d1) && at_end (lead Unbroken d2)
                 && at_end (lead Unbroken d3))%bool)
      as (ts & [L4 E4] & A4).
    { intros B. apply andb_prop in B as [B B3]. apply andb_prop in B as [B1 B2].
      apply (Cur rs (lead Unbroken d3)); auto; [apply A3; rewrite B1, B2; reflexivity|].
      apply (Cur qs (lead Unbroken d2)); auto.
      apply (Cur ps (lead Unbroken d1)); auto. }
    exists (ps ++ qs ++ rs ++ ts)%list. split.
    + split; [now constructor|]. rewrite format_cons. simpl.
      change Unbroken with (bmode false) in *.
      rewrite E. fold l1 w1. rewrite E2. fold l2 w2. rewrite E3. fold l3 w3. rewrite E4.
      rewrite !events_of_app, !cursor_app. fold l1 w1. fold l2 w2. fold l3 w3.
      now rewrite <- !app_assoc.
    + simpl. apply agrees_app; auto. intros B1.
      assert (C1 : at_end (lead Unbroken d1) = true) by (unfold at_end; now rewrite B1).
      apply agrees_app; [auto|]. intros B2.
      assert (C2 : at_end (lead Unbroken d2) = true) by (unfold at_end; now rewrite B2).
      apply agrees_app; [apply A3; now rewrite C1, C2|]. intros B3.
      assert (C3 : at_end (lead Unbroken d3) = true) by (unfold at_end; now rewrite B3).
      apply A4; now rewrite C1, C2, C3.
  - (* Nest *)
    simpl in F, N, W.
    destruct c.
    + destruct (IHd l w (new_indent j i m) docs N W F) as (ps & [L E] & A).
      exists ps. split; [|exact A]. split; [destruct m; now constructor|].
      rewrite format_cons. exact E.
    + destruct (IHd l w j docs N W F) as (ps & [L E] & A).
      exists ps. split; [|exact A]. split; [now constructor|].
      rewrite format_cons. exact E.
  - (* Group *)
    simpl in F, N, W.
    destruct (IHd l w j docs N W F) as (ps & [L E] & A).
    exists ps. split; [|exact A]. split; [now apply LyGroup with (b' := false)|].
    rewrite format_cons. simpl.
    assert (Ft : fits limit w [(j, Unbroken, d)] = true) by now apply fits_group.
    rewrite Ft. exact E.
  - exists [PText s graphemes]. split.
    + split; [constructor|]. rewrite format_cons. reflexivity.
    + unfold agrees; simpl. split; auto. intros n i [H|[]]; discriminate.
  - exists [PText s graphemes]. split.
    + split; [constructor|]. rewrite format_cons. reflexivity.
    + unfold agrees; simpl. split; auto. intros n i [H|[]]; discriminate.
  - exists [PText s 0]. split.
    + split; [constructor|]. rewrite format_cons. simpl. now rewrite Z.add_0_r.
    + unfold agrees; simpl. split; auto. intros n i [H|[]]; discriminate.
  - exists [PText s 0]. split.
    + split; [constructor|]. rewrite format_cons. simpl. now rewrite Z.add_0_r.
    + unfold agrees; simpl. split; auto. intros n i [H|[]]; discriminate.
  - exists [PObserver id]. split.
    + split; [constructor|]. rewrite format_cons. reflexivity.
    + unfold agrees; simpl. split; auto. intros n i [H|[]]; discriminate.
  - exists []. split.
    + split; [constructor|]. rewrite format_cons. reflexivity.
    + unfold agrees; simpl. split; auto.
Qed.

Lemma agrees_first_line limit w ps x : agrees ps x -> fits_after limit w x ->
  first_line_end w ps <= limit.
Proof.
  unfold agrees, fits_after. destruct x as [a []]; simpl; intros A [F1 F2].
  - destruct A as [_ A]. rewrite first_line_shift_all. lia.
  - destruct A as [_ [A _]]. rewrite first_line_shift_all. lia.
  - congruence.
Qed.

(** ** Observers of plain documents *)

Definition plain_piece (p : piece) : Prop :=
  match p with
  | PText s g => plain_text s g
  | PNewline n i => n <> 0%nat /\ 0 <= i
  | PObserver _ => True
  end.

Lemma layout_plain b i d ps : layout b i d ps -> plain d -> 0 <= i -> Forall plain_piece ps.
Proof.
  assert (One : forall p, plain_piece p -> Forall plain_piece [p])
    by (intros; constructor; auto).
  induction 1; simpl; intros P I; try (apply IHlayout; [tauto|lia]);
    try (apply Forall_app; split; [now apply IHlayout1|]);
    try (apply Forall_app; split; [now apply IHlayout2|]);
    try (apply Forall_app; split; [now apply IHlayout3|]);
    try (now apply IHlayout2); try (now apply IHlayout3); try (now apply IHlayout4);
    try (apply One; simpl; unfold plain_text in *; subst; simpl; intuition lia).
  - constructor; [simpl; unfold plain_text; tauto|]. apply One. simpl. split; [discriminate|lia].
  - constructor.
Qed.

Lemma newline_count_app a b :
  index_newline_count (a ++ b) = index_newline_count a + index_newline_count b.
Proof. induction a as [|c a IH]; simpl; auto. rewrite IH. lia. Qed.

Lemma column_after_app a : forall c b, column_after c (a ++ b) = column_after (column_after c a) b.
Proof. induction a as [|x a IH]; intros; simpl; auto. Qed.

Lemma newline_count_nonneg s : 0 <= index_newline_count s.
Proof. induction s as [|c s IH]; simpl; [lia|]. destruct (Ascii.eqb c newline); lia. Qed.

Lemma column_no_newline s : forall c, index_newline_count s = 0 -> column_after c s = c + slen s.
Proof.
  induction s as [|x s IH]; intros c H; unfold slen in *; simpl in *; [lia|].
  pose proof (newline_count_nonneg s).
  destruct (Ascii.eqb x newline) eqn:E; [lia|].
  rewrite IH by lia. lia.
Qed.

Lemma newlines_count n : index_newline_count (newlines n) = Z.of_nat n.
Proof.
  induction n; [reflexivity|].
  change (newlines (S n)) with (String newline (newlines n)).
  rewrite Nat2Z.inj_succ. cbn [index_newline_count]. rewrite IHn, Ascii.eqb_refl. lia.
Qed.

Lemma newlines_column n : n <> 0%nat -> forall c, column_after c (newlines n) = 0.
Proof.
  induction n; [easy|]. intros _ c.
  change (newlines (S n)) with (String newline (newlines n)).
  cbn [column_after]. rewrite Ascii.eqb_refl. destruct n; auto.
Qed.

Lemma spaces_count n : index_newline_count (spaces n) = 0.
Proof. unfold spaces. induction (Z.to_nat n); simpl; auto. Qed.

Lemma repeat_length c n : String.length (repeat_char c n) = n.
Proof. induction n; simpl; auto. Qed.

Lemma observed_truly_app a : forall before b,
  observed_truly before (a ++ b)
  <-> observed_truly before a /\ observed_truly (before ++ written a) b.
Proof.
  induction a as [|[] a IH]; intros before b; simpl.
  - assert (E : (before ++ "")%string = before)
      by (induction before; simpl; congruence).
    rewrite E. tauto.
  - rewrite IH. rewrite append_assoc_s. tauto.
  - rewrite IH. tauto.
Qed.

Lemma events_truly ps : Forall plain_piece ps -> forall before l w,
  l = index_newline_count before -> w = column_after 0 before ->
  observed_truly before (events_of l w ps).
Proof.
  induction 1 as [|p ps P _ IH]; intros before l w Hl Hw; simpl; auto.
  destruct p; simpl in P.
  - destruct P as [-> P2]. apply IH.
    + rewrite newline_count_app. lia.
    + rewrite column_after_app, <- Hw. now rewrite column_no_newline.
  - destruct P as [P1 P2]. simpl. apply IH.
    + rewrite !newline_count_app, newlines_count, spaces_count. lia.
    + rewrite !column_after_app, newlines_column by auto.
      rewrite column_no_newline by apply spaces_count.
      unfold slen, spaces. rewrite repeat_length. lia.
  - repeat split; auto.
Qed.

(** ** Construction *)

(** Two work queues that print the same from everywhere. *)
Definition queue_eq (limit : Z) (a b : list item) : Prop :=
  (forall w, fits limit w a = fits limit w b)
  /\ (forall l w, format limit l w a = format limit l w b).

Lemma queue_eq_refl limit a : queue_eq limit a a.
Proof. split; auto. Qed.
Lemma queue_eq_sym limit a b : queue_eq limit a b -> queue_eq limit b a.
Proof. intros [A B]; split; auto. Qed.
Lemma queue_eq_trans limit a b c : queue_eq limit a b -> queue_eq limit b c -> queue_eq limit a c.
Proof. intros [A B] [C D]; split; intros; [now rewrite A|now rewrite B]. Qed.

Lemma queue_eq_cons limit d : forall i m a b, queue_eq limit a b ->
  queue_eq limit ((i, m, d) :: a) ((i, m, d) :: b).
Proof.
  Opaque fits format.
  assert (Use : forall a b, queue_eq limit a b ->
    (forall w, fits limit w a = fits limit w b) /\
    (forall l w, format limit l w a = format limit l w b)) by (intros a b H; exact H).
  induction d; intros j md x y H; pose proof H as [F G];
    (split; [intros w|intros l w]);
    rewrite ?(fits_cons limit), ?(format_cons limit);
    try (destruct (limit <? w); [reflexivity|]);
    cbn [fits_step format_step]; rewrite ?F, ?G; auto.
  - destruct md; auto; now apply Use, IHd.
  - now apply Use, IHd.
  - destruct m; now apply Use, IHd.
  - now apply Use, IHd.
  - now apply Use, IHd1, IHd2.
  - now apply Use, IHd1, IHd2.
  - now apply Use, IHd1, IHd2, IHd3.
  - now apply Use, IHd1, IHd2, IHd3.
  - now apply Use, IHd1, IHd2, IHd3, IHd4.
  - now apply Use, IHd1, IHd2, IHd3, IHd4.
  - destruct c; now apply Use, IHd.
  - destruct c, md; now apply Use, IHd.
  - now apply Use, IHd.
  - destruct (fits limit w [(j, Unbroken, d)]); now apply Use, IHd.
  Transparent fits format.
Qed.

Lemma queue_eq_join limit i m a b docs :
  queue_eq limit ((i, m, Join a b) :: docs) ((i, m, a) :: (i, m, b) :: docs).
Proof.
  split; intros.
  - rewrite fits_cons. destruct (limit <? w) eqn:E; auto.
    rewrite fits_ltb; auto. now apply Z.ltb_lt.
  - now rewrite format_cons.
Qed.
Lemma queue_eq_join3 limit i m a b c docs :
  queue_eq limit ((i, m, Join3 a b c) :: docs) ((i, m, a) :: (i, m, b) :: (i, m, c) :: docs).
Proof.
  split; intros.
  - rewrite fits_cons. destruct (limit <? w) eqn:E; auto.
    rewrite fits_ltb; auto. now apply Z.ltb_lt.
  - now rewrite format_cons.
Qed.
Lemma queue_eq_join4 limit i m a b c d docs :
  queue_eq limit ((i, m, Join4 a b c d) :: docs)
    ((i, m, a) :: (i, m, b) :: (i, m, c) :: (i, m, d) :: docs).
Proof.
  split; intros.
  - rewrite fits_cons. destruct (limit <? w) eqn:E; auto.
    rewrite fits_ltb; auto. now apply Z.ltb_lt.
  - now rewrite format_cons.
Qed.
Lemma queue_eq_empty limit i m docs : queue_eq limit ((i, m, Empty) :: docs) docs.
Proof.
  split; intros.
  - rewrite fits_cons. destruct (limit <? w) eqn:E; auto.
    rewrite fits_ltb; auto. now apply Z.ltb_lt.
  - now rewrite format_cons.
Qed.

Lemma queue_eq_append limit i m a b docs :
  queue_eq limit ((i, m, append a b) :: docs) ((i, m, a) :: (i, m, b) :: docs).
Proof.
  assert (J : queue_eq limit ((i, m, Join a b) :: docs) ((i, m, a) :: (i, m, b) :: docs))
    by apply queue_eq_join.
  assert (NE : b <> Empty -> queue_eq limit ((i, m, append a b) :: docs)
                               ((i, m, a) :: (i, m, b) :: docs)).
  { intros NE.
    assert (E : append a b = match a with
      | Empty => b | Join x y => Join3 x y b | Join3 x y z => Join4 x y z b | _ => Join a b end)
      by (destruct b; auto; congruence).
    rewrite E. destruct a; auto.
    - eapply queue_eq_trans; [apply queue_eq_join3|apply queue_eq_sym, queue_eq_join].
    - eapply queue_eq_trans; [apply queue_eq_join4|apply queue_eq_sym, queue_eq_join3].
    - apply queue_eq_sym, queue_eq_empty. }
  destruct b; try (apply NE; discriminate).
  simpl. apply queue_eq_cons, queue_eq_sym, queue_eq_empty.
Qed.

Lemma list_ind3 {A} (P : list A -> Prop) :
  P [] -> (forall a, P [a]) -> (forall a b, P [a; b]) ->
  (forall a b c l, P l -> P (a :: b :: c :: l)) -> forall l, P l.
Proof.
  intros H0 H1 H2 H3. fix IH 1. intros [|a [|b [|c l]]]; [exact H0|apply H1|apply H2|apply H3, IH].
Qed.

Lemma queue_eq_concat_from limit i m ds : forall p docs,
  queue_eq limit ((i, m, concat_from p ds) :: docs) ((i, m, p) :: at_level i m ds ++ docs).
Proof.
  induction ds as [| a | a b | a b c ds IH] using list_ind3; intros p docs.
  - apply queue_eq_refl.
  - apply queue_eq_append.
  - apply queue_eq_join3.
  - cbn [concat_from]. eapply queue_eq_trans; [apply IH|]. apply queue_eq_join4.
Qed.

Lemma queue_eq_concat limit i m ds docs :
  queue_eq limit ((i, m, concat ds) :: docs) (at_level i m ds ++ docs).
Proof.
  destruct ds as [|d ds]; [apply queue_eq_empty|apply queue_eq_concat_from].
Qed.

Lemma intersperse_cons {A} (sep x y : A) l :
  intersperse sep (x :: y :: l) = x :: sep :: intersperse sep (y :: l).
Proof. reflexivity. Qed.

Lemma queue_eq_join_from limit i m sep ds : forall p docs,
  queue_eq limit ((i, m, join_from p sep ds) :: docs)
    (at_level i m (intersperse sep (p :: ds)) ++ docs).
Proof.
  induction ds as [|d ds IH]; intros p docs.
  - apply queue_eq_refl.
  - cbn [join_from]. eapply queue_eq_trans; [apply IH|].
    rewrite intersperse_cons. destruct ds as [|e ds].
    + apply queue_eq_join3.
    + rewrite !intersperse_cons. apply queue_eq_join3.
Qed.

Lemma queue_eq_join_list limit i m sep ds docs :
  queue_eq limit ((i, m, join ds sep) :: docs) (at_level i m (intersperse sep ds) ++ docs).
Proof.
  destruct ds as [|d ds]; [apply queue_eq_empty|apply queue_eq_join_from].
Qed.

(** ** is_empty *)

Lemma empty_append_r (s : string) : (s ++ "")%string = s.
Proof. induction s; simpl; congruence. Qed.

Lemma render_app a b : render (a ++ b) = (render a ++ render b)%string.
Proof.
  induction a as [|[] a IH]; simpl; auto; rewrite ?IH, ?append_assoc_s; auto.
Qed.

(** ** Results used by the property file *)

Lemma layout_in_context limit l w i b d docs :
  exists ps, layout b i d ps
    /\ written (format limit l w ((i, if b then Broken else Unbroken, d) :: docs))
       = (render ps
          ++ written (format limit (fst (cursor l w ps)) (snd (cursor l w ps)) docs))%string
    /\ observed (format limit l w ((i, if b then Broken else Unbroken, d) :: docs))
       = (observations l w ps
          ++ observed (format limit (fst (cursor l w ps)) (snd (cursor l w ps)) docs))%list.
Proof.
  destruct (format_layout limit d l w i b docs) as (ps & L & E).
  exists ps. unfold bmode in E. rewrite E.
  rewrite written_app, observed_app, written_events, observed_events. auto.
Qed.

Lemma layout_top limit d :
  exists ps, layout false 0 d ps /\ to_pretty_string limit d = render ps
    /\ observed (pretty_print limit d) = observations 0 0 ps.
Proof.
  destruct (layout_in_context limit 0 0 0 false d []) as (ps & L & W & O).
  exists ps. unfold to_pretty_string, pretty_print. rewrite W, O. rewrite format_nil. simpl.
  rewrite empty_append_r, app_nil_r. auto.
Qed.

Lemma group_flat_text limit l w i m d docs :
  soft d -> widths_ok d -> w + flat_width d <= limit ->
  written (format limit l w ((i, m, Group d) :: docs))
  = (render (flat d) ++ written (format limit l (w + flat_width d) docs))%string.
Proof.
  intros S W H. rewrite format_group_flat, written_app, written_events by auto. reflexivity.
Qed.

Lemma group_mode limit l w i m d docs : widths_ok d ->
  (fits_after limit w (lead Unbroken d) ->
   format limit l w ((i, m, Group d) :: docs) = format limit l w ((i, Unbroken, d) :: docs))
  /\ (~ fits_after limit w (lead Unbroken d) ->
   format limit l w ((i, m, Group d) :: docs) = format limit l w ((i, Broken, d) :: docs)).
Proof.
  intros W. rewrite format_cons. cbn [format_step].
  pose proof (fits_group limit w i Unbroken d W) as F.
  destruct (fits limit w [(i, Unbroken, d)]).
  - split; auto. intros H. exfalso. apply H. now apply F.
  - split; auto. intros H. apply F in H. discriminate.
Qed.

Lemma group_respects_limit limit l w i m d docs :
  no_next_break_fits d -> widths_ok d ->
  exists b ps, layout b i d ps
    /\ written (format limit l w ((i, m, Group d) :: docs))
       = (render ps
          ++ written (format limit (fst (cursor l w ps)) (snd (cursor l w ps)) docs))%string
    /\ (b = false -> first_line_end w ps <= limit)
    /\ (b = true -> ~ fits_after limit w (lead Unbroken d)).
Proof.
  intros N W. destruct (group_mode limit l w i m d docs W) as [A B].
  destruct (fits limit w [(i, Unbroken, d)]) eqn:F.
  - apply fits_group in F; auto.
    destruct (format_agrees limit d l w i docs N W F) as (ps & [L E] & Ag).
    exists false, ps. split; auto. rewrite A by auto. simpl in E. rewrite E.
    rewrite written_app, written_events. repeat split; auto.
    + intros _. eapply agrees_first_line; eauto.
    + discriminate.
  - assert (NF : ~ fits_after limit w (lead Unbroken d)).
    { intros H. apply (fits_group limit w i) in H; auto. congruence. }
    destruct (format_layout limit d l w i true docs) as (ps & L & E).
    exists true, ps. split; auto. rewrite B by auto. simpl in E. rewrite E.
    rewrite written_app, written_events. repeat split; auto. discriminate.
Qed.

Lemma smooth_lead a m : smooth a -> m = Unbroken \/ m = ForcedUnbroken ->
  snd (lead m a) = AtEnd.
Proof.
  intros [S N]. revert m.
  assert (T : forall x y, snd x = AtEnd -> snd y = AtEnd -> snd (then_ x y) = AtEnd).
  { intros [p e] [q f]; simpl; intros; subst; auto. }
  induction a; intros md Hm; simpl in *; try tauto; auto.
  - destruct m; [tauto|]. apply IHa; auto.
  - destruct Hm; subst; auto.
  - apply T; [apply IHa1|apply IHa2]; tauto.
  - apply T; [apply IHa1; tauto|]. apply T; [apply IHa2|apply IHa3]; tauto.
  - apply T; [apply IHa1; tauto|]. apply T; [apply IHa2; tauto|].
    apply T; [apply IHa3|apply IHa4]; tauto.
  - destruct Hm; subst; apply IHa; auto.
Qed.

Lemma forced_lead d : forced_early d -> forall m, m = Unbroken \/ m = ForcedUnbroken ->
  snd (lead m d) = AtForcedBreak.
Proof.
  assert (T1 : forall x y, snd x = AtForcedBreak -> snd (then_ x y) = AtForcedBreak).
  { intros [p e] [q f]; simpl; intros; subst; auto. }
  assert (T2 : forall x y, snd x = AtEnd -> snd y = AtForcedBreak ->
                 snd (then_ x y) = AtForcedBreak).
  { intros [p e] [q f]; simpl; intros; subst; auto. }
  induction 1; intros md Hm; simpl; auto;
    try (apply T1; now apply IHforced_early);
    try (apply T2; [now apply smooth_lead|]; try (now apply IHforced_early));
    try (apply T1; now apply IHforced_early);
    try (apply T2; [now apply smooth_lead|]; try (now apply IHforced_early));
    try (apply T1; now apply IHforced_early);
    try (apply T2; [now apply smooth_lead|]; try (now apply IHforced_early)).
  - destruct Hm; subst; auto.
  - destruct Hm; subst; auto.
Qed.

Lemma forced_group limit l w i m d docs : widths_ok d -> forced_early d ->
  exists ps, layout true i d ps
    /\ written (format limit l w ((i, m, Group d) :: docs))
       = (render ps
          ++ written (format limit (fst (cursor l w ps)) (snd (cursor l w ps)) docs))%string.
Proof.
  intros W F. destruct (group_mode limit l w i m d docs W) as [_ B].
  rewrite B by (intros [_ H]; apply H; apply forced_lead; auto).
  destruct (format_layout limit d l w i true docs) as (ps & L & E).
  exists ps. split; auto. simpl in E. rewrite E. now rewrite written_app, written_events.
Qed.

Lemma flex_choice limit l w i br un docs : widths_ok_all docs ->
  (fits_after limit (w + slen un) (lead_all docs) ->
   format limit l w ((i, Broken, Break br un Flex) :: docs)
   = Write un :: format limit l (w + slen un) docs)
  /\ (~ fits_after limit (w + slen un) (lead_all docs) ->
   format limit l w ((i, Broken, Break br un Flex) :: docs)
   = Write br :: Write (newlines 1) :: Write (spaces i) :: format limit (l + 1) i docs).
Proof.
  intros W. rewrite format_cons. cbn [format_step].
  pose proof (fits_spec limit (w + slen un) docs W) as F.
  destruct (fits limit (w + slen un) docs).
  - split; auto. intros H. exfalso. apply H. now apply F.
  - split; auto. intros H. apply F in H. discriminate.
Qed.

Lemma queue_eq_group limit i m d docs :
  queue_eq limit ((i, m, group d) :: docs) ((i, m, Group d) :: docs).
Proof.
  assert (Leaf : forall d, (forall w, fits limit w ((i, m, d) :: docs)
       = fits limit w ((i, match m with Broken => Unbroken | _ => m end, d) :: docs)) ->
     (forall l w, format limit l w ((i, m, d) :: docs)
        = format limit l w ((i, Unbroken, d) :: docs)
        /\ format limit l w ((i, m, d) :: docs) = format limit l w ((i, Broken, d) :: docs)) ->
     queue_eq limit ((i, m, d) :: docs) ((i, m, Group d) :: docs)).
  { intros x A B. split; intros.
    - rewrite (fits_cons _ _ _ _ (Group x)). cbn [fits_step].
      destruct (limit <? w) eqn:E; auto. apply fits_ltb. now apply Z.ltb_lt.
    - rewrite (format_cons _ _ _ _ _ (Group x)). cbn [format_step].
      destruct (B l w) as [B1 B2]. destruct (fits limit w [(i, Unbroken, x)]); auto. }
  destruct d; try apply queue_eq_refl; cbn [group];
    try (apply Leaf; intros; rewrite !fits_cons || rewrite !format_cons; 
         cbn [format_step fits_step]; auto; fail).
  split; intros.
  - rewrite (fits_cons _ _ _ _ (Group (Group d))).
    destruct (limit <? w) eqn:E; [apply fits_ltb; now apply Z.ltb_lt|]. cbn [fits_step].
    rewrite (fits_cons _ _ _ _ (Group d)), (fits_cons _ _ _ _ (Group d)). rewrite E.
    cbn [fits_step]. now destruct m.
  - rewrite (format_cons _ _ _ _ _ (Group (Group d))). cbn [format_step].
    rewrite !(format_cons _ _ _ _ _ (Group d)). cbn [format_step].
    now destruct (fits limit w [(i, Unbroken, Group d)]).
Qed.

Lemma is_empty_lineless limit l w i m d docs : lineless d -> is_empty d = true ->
  written (format limit l w ((i, m, d) :: docs)) = written (format limit l (snd (cursor l w (flat d))) docs).
Proof.
  assert (SE : forall s, str_is_empty s = true -> s = "") by (intros []; simpl; congruence).
  revert l w i m docs.
  induction d; intros l w j md docs L E; simpl in L, E; try tauto; rewrite format_cons;
    cbn [format_step flat].
  - now apply IHd.
  - now apply IHd.
  - apply andb_prop in E as [E1 E2]. destruct L. rewrite IHd1 by auto.
    assert (C : forall d l w, lineless d -> fst (cursor l w (flat d)) = l).
    { clear. induction d; simpl; intros; try tauto; auto; rewrite !cursor_app;
        rewrite ?IHd1, ?IHd2, ?IHd3, ?IHd4 by tauto; auto. }
    rewrite IHd2 by auto. rewrite cursor_app. rewrite C by auto. auto.
  - apply andb_prop in E as [E E3]. apply andb_prop in E as [E1 E2].
    destruct L as (L1 & L2 & L3).
    assert (C : forall d l w, lineless d -> fst (cursor l w (flat d)) = l).
    { clear. induction d; simpl; intros; try tauto; auto; rewrite !cursor_app;
        rewrite ?IHd1, ?IHd2, ?IHd3, ?IHd4 by tauto; auto. }
    rewrite IHd1, IHd2, IHd3 by auto. rewrite !cursor_app, !C by auto. auto.
  - apply andb_prop in E as [E E4]. apply andb_prop in E as [E E3]. apply andb_prop in E as [E1 E2].
    destruct L as (L1 & L2 & L3 & L4).
    assert (C : forall d l w, lineless d -> fst (cursor l w (flat d)) = l).
    { clear. induction d; simpl; intros; try tauto; auto; rewrite !cursor_app;
        rewrite ?IHd1, ?IHd2, ?IHd3, ?IHd4 by tauto; auto. }
    rewrite IHd1, IHd2, IHd3, IHd4 by auto. rewrite !cursor_app, !C by auto. auto.
  - destruct c, md; now apply IHd.
  - destruct (fits limit w [(j, Unbroken, d)]); now apply IHd.
  - apply SE in E. subst. reflexivity.
  - apply SE in E. subst. reflexivity.
  - apply SE in E. subst. simpl. now rewrite Z.add_0_r.
  - apply SE in E. subst. simpl. now rewrite Z.add_0_r.
  - reflexivity.
Qed.

Lemma observers_truthful limit d : plain d ->
  observed_truly "" (pretty_print limit d).
Proof.
  intros P. destruct (format_layout limit d 0 0 0 false []) as (ps & L & E).
  unfold pretty_print. unfold bmode in E. rewrite E, format_nil, app_nil_r.
  apply events_truly; auto. eapply layout_plain; eauto. lia.
Qed.

Lemma render_empty_app a b : render (a ++ b) = "" <-> render a = "" /\ render b = "".
Proof.
  rewrite render_app. destruct (render a); simpl; [tauto|].
  split; [discriminate|intros [H _]; discriminate].
Qed.

Lemma layout_lineless_empty b i d ps : layout b i d ps -> lineless d ->
  (is_empty d = true <-> render ps = "").
Proof.
  assert (SE : forall s, str_is_empty s = true <-> (s ++ "")%string = "")
    by (intros []; simpl; intuition congruence).
  induction 1; simpl; intros L; try tauto; auto;
    rewrite ?andb_true_iff, ?render_empty_app;
    repeat match goal with IH : lineless ?d -> _ |- _ =>
      let G := fresh "G" in assert (G : lineless d) by tauto; specialize (IH G); clear G end;
    tauto.
Qed.

Lemma is_empty_exact limit d : lineless d ->
  (is_empty d = true <-> to_pretty_string limit d = "").
Proof.
  intros L. destruct (layout_top limit d) as (ps & P & -> & _).
  eapply layout_lineless_empty; eauto.
Qed.

Lemma layout_group b i d ps : layout b i (group d) ps <-> exists b', layout b' i d ps.
Proof.
  assert (G : forall d, layout b i (Group d) ps <-> exists b', layout b' i d ps).
  { intros x. split; [inversion 1; eauto|intros [b' H]; econstructor; eauto]. }
  destruct d; cbn [group]; try apply G;
    (split; [eauto|intros [b' H]; inversion H; subst; econstructor; eauto]).
Qed.

Definition width_is_right (e : string * string * Z) : bool :=
  let '(_, text, width) := e in width =? slen text.
