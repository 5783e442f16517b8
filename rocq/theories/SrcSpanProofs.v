From Coq Require Import NArith List Bool Arith Lia.
From Verif Require Import SrcSpan SrcSpanSpec.
Import ListNotations.

Lemma len_utf8_pos c : 1 <= len_utf8 c.
Proof. unfold len_utf8. repeat destruct (_ <? _)%N; lia. Qed.
Lemma len_utf16_pos c : 1 <= len_utf16 c.
Proof. unfold len_utf16. destruct (_ <? _)%N; lia. Qed.
Lemma newline_one : len_utf8 newline = 1.
Proof. reflexivity. Qed.

Lemma byte_length_app a b : byte_length (a ++ b) = byte_length a + byte_length b.
Proof. unfold byte_length. now rewrite map_app, list_sum_app. Qed.
Lemma byte_length_cons c b : byte_length (c :: b) = len_utf8 c + byte_length b.
Proof. reflexivity. Qed.
Lemma utf16_length_app a b : utf16_length (a ++ b) = utf16_length a + utf16_length b.
Proof. unfold utf16_length. now rewrite map_app, list_sum_app. Qed.
Lemma utf16_length_cons c b : utf16_length (c :: b) = len_utf16 c + utf16_length b.
Proof. reflexivity. Qed.
Lemma newlines_app a b : newlines_in (a ++ b) = newlines_in a + newlines_in b.
Proof. induction a as [|c a IH]; simpl; auto. destruct (c =? newline)%N; lia. Qed.

Lemma starts_app a : forall i b,
  starts_after_newlines i (a ++ b)
  = starts_after_newlines i a ++ starts_after_newlines (i + byte_length a) b.
Proof.
  induction a as [|c a IH]; intros i b; simpl; [now rewrite Nat.add_0_r|].
  rewrite byte_length_cons, Nat.add_assoc.
  destruct (c =? newline)%N; simpl; now rewrite IH.
Qed.

Lemma starts_length src : forall i, length (starts_after_newlines i src) = newlines_in src.
Proof.
  induction src as [|c src IH]; intros i; simpl; auto.
  destruct (c =? newline)%N; simpl; now rewrite IH.
Qed.

Lemma starts_lower src : forall i x, In x (starts_after_newlines i src) -> i < x.
Proof.
  induction src as [|c src IH]; intros i x H; simpl in *; [tauto|].
  pose proof (len_utf8_pos c).
  destruct (c =? newline)%N.
  - destruct H as [<-|H]; [lia|]. apply IH in H. lia.
  - apply IH in H. lia.
Qed.

Lemma starts_upper src : forall i x, In x (starts_after_newlines i src) ->
  x <= i + byte_length src.
Proof.
  induction src as [|c src IH]; intros i x H; simpl in *; [tauto|].
  rewrite byte_length_cons. pose proof (len_utf8_pos c).
  destruct (c =? newline)%N.
  - destruct H as [<-|H]; [lia|]. apply IH in H. lia.
  - apply IH in H. lia.
Qed.

Lemma starts_in src : forall i x, In x (starts_after_newlines i src) <->
  exists pre post, src = pre ++ newline :: post /\ x = i + byte_length pre + 1.
Proof.
  induction src as [|c src IH]; intros i x; simpl.
  - split; [tauto|]. intros (pre & post & H & _). destruct pre; discriminate.
  - assert (R : In x (starts_after_newlines (i + len_utf8 c) src) <->
        exists pre post, c :: src = (c :: pre) ++ newline :: post
          /\ x = i + byte_length (c :: pre) + 1).
    { rewrite IH. split; intros (pre & post & E & X); exists pre, post.
      - subst src. rewrite byte_length_cons. split; [reflexivity|lia].
      - rewrite byte_length_cons in X. simpl in E. injection E as E. split; [auto|lia]. }
    destruct (c =? newline)%N eqn:Ec.
    + apply N.eqb_eq in Ec. simpl. rewrite R. split.
      * intros [<-|(pre & post & E & X)].
        -- exists [], src. subst c. split; [reflexivity|unfold byte_length; simpl; lia].
        -- exists (c :: pre), post. auto.
      * intros (pre & post & E & X). destruct pre as [|d pre].
        -- left. unfold byte_length in X; simpl in X. lia.
        -- right. simpl in E. injection E as <- E. exists pre, post. subst src. auto.
    + rewrite R. split.
      * intros (pre & post & E & X). exists (c :: pre), post. auto.
      * intros (pre & post & E & X). destruct pre as [|d pre].
        -- simpl in E. injection E as -> _. rewrite N.eqb_refl in Ec. discriminate.
        -- simpl in E. injection E as <- E. exists pre, post. subst src. auto.
Qed.

(** Searching: everything in [a] is at most [x], everything in [b] is above. *)
Lemma bs_split a : forall i b x,
  (forall y, In y a -> y <= x) -> (forall y, In y b -> x < y) ->
  (forall a1 y a2, a = a1 ++ y :: a2 -> forall z, In z a2 -> y < z) ->
  (exists j, binary_search_from i (a ++ b) x = inl j /\ j + 1 = i + length a)
  \/ binary_search_from i (a ++ b) x = inr (i + length a).
Proof.
  induction a as [|y a IH]; intros i b x Ha Hb Hs; simpl.
  - right. rewrite Nat.add_0_r. destruct b as [|y b]; simpl; auto.
    assert (x < y) by (apply Hb; now left).
    destruct (Nat.eqb_spec y x); [lia|]. destruct (Nat.ltb_spec x y); [auto|lia].
  - assert (y <= x) by (apply Ha; now left).
    destruct (Nat.eqb_spec y x).
    + subst. destruct a as [|z a].
      * left. exists i. simpl. split; auto; lia.
      * exfalso. assert (x < z) by (apply (Hs [] x (z :: a)); simpl; auto).
        assert (z <= x) by (apply Ha; simpl; auto). lia.
    + destruct (Nat.ltb_spec x y); [lia|].
      destruct (IH (S i) b x) as [(j & E & L)|E].
      * intros z Hz; apply Ha; now right.
      * auto.
      * intros a1 z a2 E w Hw. apply (Hs (y :: a1) z a2); [now rewrite E|auto].
      * left. exists j. split; [auto|lia].
      * right. rewrite E. f_equal. lia.
Qed.

Lemma starts_sorted src : forall i a1 y a2, starts_after_newlines i src = a1 ++ y :: a2 ->
  forall z, In z a2 -> y < z.
Proof.
  induction src as [|c src IH]; intros i a1 y a2 E z Hz; simpl in E.
  - destruct a1; discriminate.
  - pose proof (len_utf8_pos c). destruct (c =? newline)%N; [|eapply IH; eauto].
    destruct a1 as [|y' a1]; simpl in E.
    + injection E as <- E. rewrite <- E in Hz. apply starts_lower in Hz. lia.
    + injection E as _ E. eapply IH; eauto.
Qed.

Lemma line_number_spec pre post b : falls_between pre post b ->
  line_number (new (pre ++ post)) b = newlines_in pre + 1.
Proof.
  intros [L U]. unfold line_number, binary_search. simpl line_starts.
  rewrite starts_app. cbn [Nat.add].
  rewrite (app_comm_cons (starts_after_newlines 0 pre)).
  destruct (bs_split (0 :: starts_after_newlines 0 pre) 0
              (starts_after_newlines (byte_length pre) post) b) as [(j & E & J)|E].
  - intros y [<-|H]; [lia|]. apply starts_upper in H. lia.
  - intros y H. destruct post as [|c post]; [destruct H|]. simpl in H.
    destruct (c =? newline)%N eqn:Ec.
    + apply N.eqb_eq in Ec. subst c. rewrite newline_one in *.
      destruct H as [<-|H]; [lia|]. apply starts_lower in H. lia.
    + apply starts_lower in H. lia.
  - intros a1 y a2 E z Hz. destruct a1 as [|y' a1]; simpl in E.
    + injection E as <- E. rewrite <- E in Hz. apply starts_lower in Hz. lia.
    + injection E as _ E. eapply starts_sorted; eauto.
  - rewrite E. simpl in J. rewrite starts_length in J. lia.
  - rewrite E. simpl. rewrite starts_length. lia.
Qed.

(** The start of the line in which [pre] ends. *)
Lemma line_start_spec pre post ln : last_line pre ln ->
  line_start_of (new (pre ++ post)) (newlines_in pre + 1) + byte_length ln = byte_length pre.
Proof.
  intros [N [->|(before & ->)]]; unfold line_start_of; simpl line_starts.
  - assert (Z : newlines_in ln = 0).
    { clear post. induction ln as [|c l IH]; simpl; auto.
      destruct (N.eqb_spec c newline).
      - exfalso; apply N; left; auto.
      - rewrite IH; auto. intros H; apply N; right; auto. }
    rewrite Z. reflexivity.
  - rewrite newlines_app. cbn [newlines_in]. change (newline =? newline)%N with true. cbn iota.
    assert (Z : newlines_in ln = 0).
    { clear post. induction ln as [|c l IH]; simpl; auto.
      destruct (N.eqb_spec c newline).
      - exfalso; apply N; left; auto.
      - rewrite IH; auto. intros H; apply N; right; auto. }
    rewrite Z.
    match goal with |- context [nth ?k _ _] =>
      replace k with (S (newlines_in before)) by lia end.
    rewrite <- app_assoc, starts_app. cbn [nth Nat.add].
    rewrite app_nth2; rewrite starts_length; [|lia].
    rewrite Nat.sub_diag. simpl.
    rewrite byte_length_app, byte_length_cons, newline_one. lia.
Qed.

(** The mapping at a character boundary. *)
Lemma map_get_low m k : (forall k' v, In (k', v) m -> k < k') -> map_get m k = None.
Proof.
  induction m as [|[k' v] m IH]; intros H; simpl; auto.
  destruct (Nat.eqb_spec k k').
  - subst. exfalso. specialize (H k' v). simpl in H. specialize (H (or_introl eq_refl)). lia.
  - apply IH. intros a b I. apply (H a b). now right.
Qed.

Lemma mapping_lower src : forall i k v, In (k, v) (mapping_from i src) -> i <= k.
Proof.
  induction src as [|c src IH]; intros i k v H; simpl in H; [tauto|].
  pose proof (len_utf8_pos c).
  destruct (Nat.eqb (len_utf8 c) 1).
  - apply IH in H. lia.
  - destruct H as [H|H]; [injection H as <- _; lia|]. apply IH in H. lia.
Qed.

Lemma map_get_boundary pre c post : forall i,
  map_get (mapping_from i (pre ++ c :: post)) (i + byte_length pre)
  = if Nat.eqb (len_utf8 c) 1 then None else Some (Character (len_utf8 c) (len_utf16 c)).
Proof.
  induction pre as [|d pre IH]; intros i; simpl.
  - unfold byte_length; simpl. rewrite Nat.add_0_r.
    destruct (Nat.eqb_spec (len_utf8 c) 1) as [E|E]; simpl.
    + apply map_get_low. intros k' v H. apply mapping_lower in H. lia.
    + now rewrite Nat.eqb_refl.
  - pose proof (len_utf8_pos d).
    destruct (Nat.eqb (len_utf8 d) 1); simpl.
    + rewrite byte_length_cons, Nat.add_assoc. apply IH.
    + rewrite byte_length_cons.
      destruct (Nat.eqb_spec (i + (len_utf8 d + byte_length pre)) i); [lia|].
      rewrite Nat.add_assoc. apply IH.
Qed.

Lemma one_byte_one_unit c : len_utf8 c = 1 -> len_utf16 c = 1.
Proof.
  unfold len_utf8, len_utf16.
  destruct (N.ltb_spec c 0x80); [|destruct (N.ltb_spec c 0x800); [discriminate|]].
  - destruct (N.ltb_spec c 0x10000); [auto|lia].
  - destruct (N.ltb_spec c 0x10000); discriminate.
Qed.

Lemma step_boundary pre c post u16 :
  step (mapping_from 0 (pre ++ c :: post)) (byte_length pre) u16
  = (byte_length pre + len_utf8 c, u16 + len_utf16 c).
Proof.
  unfold step. pose proof (map_get_boundary pre c post 0) as H. simpl in H. rewrite H.
  destruct (Nat.eqb_spec (len_utf8 c) 1) as [E|E]; simpl; auto.
  now rewrite E, (one_byte_one_unit c E).
Qed.

Lemma utf16_loop_spec ln : forall pre post u16 fuel, byte_length ln <= fuel ->
  utf16_loop fuel (mapping_from 0 (pre ++ ln ++ post)) (byte_length (pre ++ ln))
    (byte_length pre) u16 = Some (u16 + utf16_length ln).
Proof.
  induction ln as [|c ln IH]; intros pre post u16 fuel F.
  - rewrite app_nil_r. unfold utf16_length; simpl.
    destruct fuel; simpl; rewrite Nat.leb_refl; now rewrite Nat.add_0_r.
  - pose proof (len_utf8_pos c). rewrite byte_length_cons in F.
    destruct fuel as [|fuel]; [lia|].
    cbn [utf16_loop]. rewrite byte_length_app, byte_length_cons.
    destruct (Nat.leb_spec (byte_length pre + (len_utf8 c + byte_length ln)) (byte_length pre));
      [lia|].
    simpl app. rewrite step_boundary.
    specialize (IH (pre ++ [c]) post (u16 + len_utf16 c) fuel).
    rewrite <- !app_assoc in IH. simpl app in IH.
    rewrite !byte_length_app, !byte_length_cons in IH.
    change (byte_length []) with 0 in IH. rewrite Nat.add_0_r in IH.
    rewrite IH by lia. rewrite utf16_length_cons. f_equal. lia.
Qed.

Lemma byte_loop_spec ln : forall pre post u16 fuel, utf16_length ln <= fuel ->
  byte_loop fuel (mapping_from 0 (pre ++ ln ++ post)) (u16 + utf16_length ln)
    (byte_length pre) u16 = Some (byte_length (pre ++ ln)).
Proof.
  induction ln as [|c ln IH]; intros pre post u16 fuel F.
  - rewrite app_nil_r. unfold utf16_length; simpl. rewrite Nat.add_0_r.
    destruct fuel; simpl; now rewrite Nat.leb_refl.
  - pose proof (len_utf16_pos c). rewrite utf16_length_cons in *.
    destruct fuel as [|fuel]; [lia|].
    cbn [byte_loop].
    destruct (Nat.leb_spec (u16 + (len_utf16 c + utf16_length ln)) u16); [lia|].
    simpl app. rewrite step_boundary.
    specialize (IH (pre ++ [c]) post (u16 + len_utf16 c) fuel).
    rewrite <- !app_assoc in IH. simpl app in IH.
    rewrite (byte_length_app pre [c]), byte_length_cons in IH.
    change (byte_length []) with 0 in IH. rewrite Nat.add_0_r in IH.
    rewrite Nat.add_assoc, IH by lia. reflexivity.
Qed.

Lemma last_line_exists src : exists ln, last_line src ln.
Proof.
  induction src as [|c src (ln & N & H)].
  - exists []. split; auto.
  - destruct H as [->|(before & ->)].
    + destruct (N.eq_dec c newline) as [->|E].
      * exists ln. split; auto. right. exists []. reflexivity.
      * exists (c :: ln). split; [|auto]. intros [H|H]; auto.
    + exists ln. split; auto. right. exists (c :: before). reflexivity.
Qed.

Lemma last_line_split src ln : last_line src ln ->
  exists before, src = before ++ ln /\ last_line before [] /\ newlines_in before = newlines_in src.
Proof.
  intros [N H].
  assert (Z : newlines_in ln = 0).
  { clear H. induction ln as [|c l IH]; simpl; auto.
    destruct (N.eqb_spec c newline).
    - exfalso; apply N; left; auto.
    - rewrite IH; auto. intros G; apply N; right; auto. }
  destruct H as [->|(before & ->)].
  - exists []. simpl. repeat split; auto.
  - exists (before ++ [newline]). rewrite <- app_assoc. simpl.
    split; auto. split; [split; [auto|right; exists before; auto]|].
    rewrite !newlines_app. simpl. rewrite Z. reflexivity.
Qed.

Lemma boundary_falls pre post : falls_between pre post (byte_length pre).
Proof. split; auto. destruct post; auto. pose proof (len_utf8_pos c). lia. Qed.

Lemma split_exists src b : exists pre post, src = pre ++ post /\ falls_between pre post b.
Proof.
  assert (G : forall src i, i <= b -> exists pre post, src = pre ++ post
     /\ i + byte_length pre <= b
     /\ match post with [] => True | c :: _ => b < i + byte_length pre + len_utf8 c end).
  { clear src. induction src as [|c src IH]; intros i Hi.
    - exists [], []. unfold byte_length; simpl. repeat split; auto; lia.
    - destruct (Nat.lt_ge_cases b (i + len_utf8 c)).
      + exists [], (c :: src). unfold byte_length; simpl. repeat split; auto; lia.
      + destruct (IH (i + len_utf8 c)) as (pre & post & E & A & B); auto.
        exists (c :: pre), post. rewrite byte_length_cons. subst src. simpl. split; auto.
        split; [lia|]. destruct post; auto. lia. }
  destruct (G src 0) as (pre & post & E & A & B); [lia|].
  exists pre, post. repeat split; auto.
Qed.

Lemma utf8_column_spec pre post b ln : falls_between pre post b -> last_line pre ln ->
  line_and_utf8_column_number (new (pre ++ post)) b
  = LineColumn (newlines_in pre + 1) (byte_length ln + (b - byte_length pre)).
Proof.
  intros F L. unfold line_and_utf8_column_number.
  rewrite (line_number_spec _ _ _ F). f_equal.
  pose proof (line_start_spec pre post ln L). destruct F as [F _]. lia.
Qed.

Lemma utf16_column_spec pre post ln : last_line pre ln ->
  line_and_utf16_column_number (new (pre ++ post)) (byte_length pre)
  = Some (LineColumn (newlines_in pre + 1) (utf16_length ln + 1)).
Proof.
  intros L. unfold line_and_utf16_column_number.
  rewrite (line_number_spec _ _ _ (boundary_falls pre post)).
  pose proof (line_start_spec pre post ln L) as S.
  destruct (last_line_split pre ln L) as (before & E & _).
  assert (B : line_start_of (new (pre ++ post)) (newlines_in pre + 1) = byte_length before).
  { subst pre. rewrite (byte_length_app before ln) in S. lia. }
  rewrite B. clear S B. subst pre.
  pose proof (utf16_loop_spec ln before post 0 (byte_length (before ++ ln))) as U.
  simpl mapping. rewrite <- app_assoc. rewrite U; [simpl; auto|].
  rewrite byte_length_app. lia.
Qed.

Lemma line_starts_nth pre post ln : last_line pre ln ->
  exists s, nth_error (line_starts (new (pre ++ post))) (newlines_in pre) = Some s
    /\ s + byte_length ln = byte_length pre.
Proof.
  intros L. pose proof (line_start_spec pre post ln L) as S.
  unfold line_start_of in S. replace (newlines_in pre + 1 - 1) with (newlines_in pre) in S by lia.
  eexists. split; [|exact S]. apply nth_error_nth'. simpl.
  rewrite starts_length, newlines_app. lia.
Qed.

Lemma byte_index_spec pre post ln : last_line pre ln ->
  byte_index (new (pre ++ post)) (Position (newlines_in pre) (utf16_length ln))
  = Some (byte_length pre).
Proof.
  intros L. unfold byte_index. simpl pline. simpl character_.
  destruct (line_starts_nth pre post ln L) as (s & -> & S).
  destruct (last_line_split pre ln L) as (before & E & _).
  assert (B : s = byte_length before) by (subst pre; rewrite byte_length_app in S; lia).
  subst s pre. pose proof (byte_loop_spec ln before post 0 (utf16_length ln)) as U.
  simpl Nat.add in U. simpl mapping. rewrite <- app_assoc. apply U. auto.
Qed.

Lemma round_trip pre post :
  exists p, line_and_utf16_column_number (new (pre ++ post)) (byte_length pre) = Some p
    /\ byte_index (new (pre ++ post)) (Position (line p - 1) (column p - 1))
       = Some (byte_length pre).
Proof.
  destruct (last_line_exists pre) as (ln & L).
  eexists. split; [apply utf16_column_spec; exact L|]. cbn [line column].
  replace (newlines_in pre + 1 - 1) with (newlines_in pre) by lia.
  replace (utf16_length ln + 1 - 1) with (utf16_length ln) by lia.
  now apply byte_index_spec.
Qed.

Lemma range_round_trip pre mid post :
  let src := pre ++ mid ++ post in
  let s := Span (byte_length pre) (byte_length (pre ++ mid)) in
  exists r, src_span_to_lsp_range s (new src) = Some r
    /\ lsp_range_to_src_span r (new src) = Some s.
Proof.
  intros src s.
  destruct (round_trip pre (mid ++ post)) as (p & P1 & P2).
  destruct (round_trip (pre ++ mid) post) as (q & Q1 & Q2).
  rewrite <- app_assoc in Q1, Q2.
  unfold src_span_to_lsp_range, lsp_range_to_src_span, s, src. simpl start. simpl end_.
  rewrite P1, Q1. eexists. split; [reflexivity|]. simpl fst. simpl snd. now rewrite P2, Q2.
Qed.

Lemma past_last_line src p : newlines_in src < pline p ->
  byte_index (new src) p = Some (byte_length src).
Proof.
  intros H. unfold byte_index.
  destruct (nth_error (line_starts (new src)) (pline p)) eqn:E; auto.
  exfalso. assert (G : nth_error (line_starts (new src)) (pline p) <> None) by congruence.
  apply nth_error_Some in G. simpl in G. rewrite starts_length in G. lia.
Qed.

(** All positions: the loop always ends. *)
Lemma map_get_positive src : forall i k c, map_get (mapping_from i src) k = Some c ->
  1 <= length_utf8 c /\ 1 <= length_utf16 c.
Proof.
  induction src as [|d src IH]; intros i k c H; simpl in H; [discriminate|].
  destruct (Nat.eqb (len_utf8 d) 1); [eauto|]. simpl in H.
  destruct (Nat.eqb k i); [|eauto]. injection H as <-. simpl.
  split; [apply len_utf8_pos|apply len_utf16_pos].
Qed.

Lemma byte_loop_total src target : forall fuel u8 u16, target <= fuel + u16 ->
  byte_loop fuel (mapping_from 0 src) target u8 u16 <> None.
Proof.
  induction fuel as [|fuel IH]; intros u8 u16 H; simpl.
  - destruct (Nat.leb_spec target u16); [congruence|lia].
  - destruct (Nat.leb_spec target u16); [congruence|].
    unfold step. destruct (map_get _ u8) eqn:E.
    + apply map_get_positive in E. apply IH. lia.
    + apply IH. lia.
Qed.

Lemma utf16_loop_total src b : forall fuel u8 u16, b <= fuel + u8 ->
  utf16_loop fuel (mapping_from 0 src) b u8 u16 <> None.
Proof.
  induction fuel as [|fuel IH]; intros u8 u16 H; simpl.
  - destruct (Nat.leb_spec b u8); [congruence|lia].
  - destruct (Nat.leb_spec b u8); [congruence|].
    unfold step. destruct (map_get _ u8) eqn:E.
    + apply map_get_positive in E. apply IH. lia.
    + apply IH. lia.
Qed.

Lemma conversions_total src b p :
  line_and_utf16_column_number (new src) b <> None /\ byte_index (new src) p <> None.
Proof.
  split.
  - unfold line_and_utf16_column_number.
    destruct (utf16_loop _ _ _ _ _) eqn:E; [congruence|].
    exfalso. eapply utf16_loop_total; [|exact E]. lia.
  - unfold byte_index. destruct (nth_error _ _); [|congruence].
    apply byte_loop_total. lia.
Qed.

Lemma spans_entire_line_spec src s :
  spans_entire_line (new src) s = true
  <-> begins_line src (start s) /\ begins_line src (end_ s + 1).
Proof.
  assert (B : forall b, In b (line_starts (new src)) <-> begins_line src b).
  { intros b. simpl. rewrite starts_in. unfold begins_line. simpl. intuition. }
  unfold spans_entire_line. rewrite existsb_exists. split.
  - intros (x & I & H). apply andb_prop in H as [H1 H2].
    apply Nat.eqb_eq in H1. subst x. apply existsb_exists in H2 as (y & J & H2).
    apply Nat.eqb_eq in H2. subst y. now rewrite <- !B.
  - rewrite <- !B. intros [H1 H2]. exists (start s). split; auto.
    rewrite Nat.eqb_refl, andb_true_l. apply existsb_exists. exists (end_ s + 1). split; auto.
    apply Nat.eqb_refl.
Qed.
