(** The order of the groups of definitions. *)
From Coq Require Import NArith Arith Bool List Lia Permutation.
From Verif Require Import Text TextProofs CallGraph CallGraphSpec CallGraphProofs.
Import ListNotations.
Local Open Scope nat_scope.

Lemma nodup_app {A} (a b : list A) : NoDup a -> NoDup b -> (forall x, In x a -> In x b -> False) -> NoDup (a ++ b).
Proof.
  induction 1 as [|x a Hx Ha IH]; intros Hb H; [exact Hb|]. cbn. constructor.
  - rewrite in_app_iff. intros [Hi|Hi]; [exact (Hx Hi)|exact (H x (or_introl eq_refl) Hi)].
  - apply IH; [exact Hb|]. intros y Hy. apply H. right. exact Hy.
Qed.

Lemma NoDup_app_split {A} (a b : list A) : NoDup (a ++ b) -> NoDup a /\ NoDup b /\ (forall x, In x a -> In x b -> False).
Proof.
  induction a as [|x a IH]; intros H; [split; [constructor|split; [exact H|intros x []]]|].
  cbn in H. inversion H as [|? ? Hx Hr]; subst. destruct (IH Hr) as (A1 & A2 & A3). rewrite in_app_iff in Hx.
  split; [constructor; tauto|split; [exact A2|]]. intros y [<-|Hy] Hb; [tauto|exact (A3 y Hy Hb)].
Qed.

(** ** There is a function that finds components

    A slow one, to show that the contract can be kept.  [path m a b]: from [a] to [b] through nodes
    below [m]. *)
Section Naive.
  Variables (n : nat) (es : list (nat * nat)).
  Hypothesis range : in_range n es.
  Fixpoint path (m : nat) (a b : nat) : bool :=
    match m with
    | O => (a =? b) || existsb (fun e => (fst e =? a) && (snd e =? b)) es
    | S m => path m a b || (path m a m && path m m b)
    end.
  Lemma path_sound m : forall a b, path m a b = true -> reaches (edge es) a b.
  Proof.
    induction m as [|m IH]; intros a b H; cbn [path] in H; apply orb_true_iff in H.
    - destruct H as [H|H].
      + apply Nat.eqb_eq in H. subst. constructor.
      + apply existsb_exists in H. destruct H as ([x y] & Hin & H). cbn [fst snd] in H.
        apply andb_true_iff in H. destruct H as [H1 H2]. apply Nat.eqb_eq in H1, H2. subst.
        apply reaches_step with b; [exact Hin|constructor].
    - destruct H as [H|H]; [apply IH; exact H|]. apply andb_true_iff in H. destruct H as [H1 H2].
      apply IH in H1, H2. clear IH. revert H2. induction H1 as [a|a c d Hs Hr IH]; intros H2; [exact H2|].
      apply reaches_step with c; [exact Hs|auto].
  Qed.
  Lemma path_refl m a : path m a a = true.
  Proof. induction m as [|m IH]; cbn [path]; [rewrite Nat.eqb_refl|rewrite IH]; reflexivity. Qed.
  Lemma path_trans m : forall a b c, b < m -> path m a b = true -> path m b c = true -> path m a c = true.
  Proof.
    induction m as [|m IH]; intros a b c Hb H1 H2; [lia|]. cbn [path] in *.
    rewrite orb_true_iff, andb_true_iff in *.
    destruct (Nat.eq_dec b m) as [->|Hne].
    - right. split; tauto.
    - assert (Hlt : b < m) by lia. pose proof (IH a b c Hlt). pose proof (IH a b m Hlt). pose proof (IH m b c Hlt).
      destruct H1 as [H1|[H1 H1']], H2 as [H2|[H2 H2']]; auto.
  Qed.
  Lemma path_edge m a b : edge es a b -> path m a b = true.
  Proof.
    intros H. induction m as [|m IH]; cbn [path]; [|rewrite IH; reflexivity].
    apply orb_true_iff. right. apply existsb_exists. exists (a, b). split; [exact H|].
    cbn [fst snd]. rewrite !Nat.eqb_refl. reflexivity.
  Qed.
  Lemma path_complete a b : reaches (edge es) a b -> path n a b = true.
  Proof.
    induction 1 as [a|a b c Hs _ IH]; [apply path_refl|].
    apply path_trans with b; [apply (range a b Hs)|apply path_edge; exact Hs|exact IH].
  Qed.
  Definition together (a b : nat) : bool := path n a b && path n b a.
  Lemma together_spec a b : together a b = true <-> reaches (edge es) a b /\ reaches (edge es) b a.
  Proof.
    unfold together. rewrite andb_true_iff.
    split; intros [H1 H2]; split; try (apply path_complete; assumption); eapply path_sound; eassumption.
  Qed.
  Definition count (a : nat) : nat := length (filter (path n a) (seq 0 n)).
  Definition least (a : nat) : bool := forallb (fun b => negb (b <? a) || negb (together a b)) (seq 0 n).
  Definition representatives : list nat :=
    flat_map (fun k => filter (fun a => least a && (count a =? k)) (seq 0 n)) (seq 0 (S n)).
  Definition naive_scc_ : list (list nat) := map (fun a => filter (together a) (seq 0 n)) representatives.

  Lemma reaches_trans a b c : reaches (edge es) a b -> reaches (edge es) b c -> reaches (edge es) a c.
  Proof. induction 1; intros H2; [exact H2|]. eapply reaches_step; [eassumption|auto]. Qed.
  Lemma together_refl a : together a a = true.
  Proof. apply together_spec. split; constructor. Qed.
  Lemma together_sym a b : together a b = true -> together b a = true.
  Proof. rewrite !together_spec. tauto. Qed.
  Lemma together_trans a b c : together a b = true -> together b c = true -> together a c = true.
  Proof.
    rewrite !together_spec. intros [A B] [C D]. split; [apply reaches_trans with b|apply reaches_trans with b]; assumption.
  Qed.
  Lemma representative_iff a : In a representatives <-> a < n /\ least a = true.
  Proof.
    unfold representatives. rewrite in_flat_map. split.
    - intros (k & _ & H). apply filter_In in H. destruct H as [H1 H2]. apply in_seq in H1.
      apply andb_true_iff in H2. split; [lia|tauto].
    - intros [H1 H2]. exists (count a). split.
      + apply in_seq. assert (count a <= n); [|lia].
        unfold count. apply (Nat.le_trans _ (length (seq 0 n))); [|rewrite seq_length; lia]. apply NoDup_incl_length.
        * apply NoDup_filter. apply seq_NoDup.
        * intros x Hx. apply filter_In in Hx. tauto.
      + apply filter_In. split; [apply in_seq; lia|]. rewrite H2, Nat.eqb_refl. reflexivity.
  Qed.
  Lemma representatives_nodup : NoDup representatives.
  Proof.
    unfold representatives. generalize (seq_NoDup (S n) 0). generalize (seq 0 (S n)).
    intros ks Hks. induction Hks as [|k ks Hk Hks IH]; [constructor|]. cbn.
    apply nodup_app.
    - apply NoDup_filter. apply seq_NoDup.
    - exact IH.
    - intros a Ha Hb. apply filter_In in Ha. destruct Ha as [_ Ha].
      apply in_flat_map in Hb. destruct Hb as (k' & Hk' & Hb). apply filter_In in Hb. destruct Hb as [_ Hb].
      apply andb_true_iff in Ha, Hb. destruct Ha as [_ Ha], Hb as [_ Hb]. apply Nat.eqb_eq in Ha, Hb. congruence.
  Qed.

  Lemma least_exists a : a < n -> exists b, b < n /\ least b = true /\ together b a = true.
  Proof.
    induction a as [a IH] using lt_wf_ind. intros Ha.
    destruct (least a) eqn:E; [exists a; split; [exact Ha|split; [exact E|apply together_refl]]|].
    unfold least in E.
    assert (X : exists b, b < a /\ b < n /\ together a b = true).
    { assert (Y : ~ forall b, In b (seq 0 n) -> negb (b <? a) || negb (together a b) = true).
      { intros H. rewrite (proj2 (forallb_forall _ _) H) in E. discriminate. }
      clear E. revert Y. assert (G : forall l, (forall b, In b l -> b < n) ->
        ~ (forall b, In b l -> negb (b <? a) || negb (together a b) = true) -> exists b, b < a /\ b < n /\ together a b = true).
      { induction l as [|b l IHl]; intros Hl Y; [exfalso; apply Y; intros b []|].
        destruct (negb (b <? a) || negb (together a b)) eqn:E.
        - apply IHl; [intros c Hc; apply Hl; right; exact Hc|]. intros H. apply Y. intros c [<-|Hc]; [exact E|auto].
        - apply orb_false_iff in E. destruct E as [E1 E2]. apply negb_false_iff in E1, E2. apply Nat.ltb_lt in E1.
          exists b. split; [exact E1|split; [apply Hl; left; reflexivity|exact E2]]. }
      apply G. intros b Hb. apply in_seq in Hb. lia. }
    destruct X as (b & Hlt & Hb & Ht). destruct (IH b Hlt Hb) as (c & Hc & Hl & Hcb).
    exists c. split; [exact Hc|split; [exact Hl|]]. apply together_trans with b; [exact Hcb|apply together_sym; exact Ht].
  Qed.
  Lemma least_unique a b : a < n -> b < n -> least a = true -> least b = true -> together a b = true -> a = b.
  Proof.
    unfold least. rewrite !forallb_forall. intros Ha Hb La Lb Ht.
    specialize (La b ltac:(apply in_seq; lia)). specialize (Lb a ltac:(apply in_seq; lia)).
    rewrite Ht in La. rewrite (together_sym a b Ht) in Lb.
    rewrite orb_false_r in La, Lb. apply negb_true_iff in La, Lb. apply Nat.ltb_ge in La, Lb. lia.
  Qed.
  Lemma count_step a b : reaches (edge es) a b -> count b <= count a.
  Proof.
    intros H. unfold count. apply NoDup_incl_length; [apply NoDup_filter; apply seq_NoDup|].
    intros x Hx. apply filter_In in Hx. destruct Hx as [H1 H2]. apply filter_In. split; [exact H1|].
    apply path_complete. apply reaches_trans with b; [exact H|eapply path_sound; exact H2].
  Qed.
  Lemma count_equal a b : a < n -> reaches (edge es) a b -> count a <= count b -> reaches (edge es) b a.
  Proof.
    intros Ha H Hc. eapply path_sound with (m := n). unfold count in Hc.
    assert (I : incl (filter (path n a) (seq 0 n)) (filter (path n b) (seq 0 n))).
    { apply NoDup_length_incl; [apply NoDup_filter; apply seq_NoDup|exact Hc|].
      intros x Hx. apply filter_In in Hx. destruct Hx as [H1 H2]. apply filter_In. split; [exact H1|].
      apply path_complete. apply reaches_trans with b; [exact H|eapply path_sound; exact H2]. }
    assert (X : In a (filter (path n b) (seq 0 n))).
    { apply I. apply filter_In. split; [apply in_seq; lia|apply path_refl]. }
    apply filter_In in X. tauto.
  Qed.
  Lemma representatives_sorted i j a b :
    nth_error representatives i = Some a -> nth_error representatives j = Some b -> i < j -> count a <= count b.
  Proof.
    assert (Low : forall len s x, In x (flat_map (fun k => filter (fun a => least a && (count a =? k)) (seq 0 n)) (seq s len)) -> s <= count x).
    { intros len0 s x Hx. apply in_flat_map in Hx. destruct Hx as (k & Hk & Hx). apply in_seq in Hk.
      apply filter_In in Hx. destruct Hx as [_ Hx]. apply andb_true_iff in Hx. destruct Hx as [_ Hx].
      apply Nat.eqb_eq in Hx. lia. }
    assert (G : forall len i j a b s,
      nth_error (flat_map (fun k => filter (fun a => least a && (count a =? k)) (seq 0 n)) (seq s len)) i = Some a ->
      nth_error (flat_map (fun k => filter (fun a => least a && (count a =? k)) (seq 0 n)) (seq s len)) j = Some b ->
      i < j -> count a <= count b); [|apply G].
    clear i j a b. induction len as [|len IH]; intros i j a b s Hi Hj Hij; [destruct i; discriminate|].
    cbn [seq flat_map] in Hi, Hj.
    set (here := filter (fun a0 : nat => least a0 && (count a0 =? s)) (seq 0 n)) in *.
    assert (Here : forall x, In x here -> count x = s).
    { intros x Hx. apply filter_In in Hx. destruct Hx as [_ Hx]. apply andb_true_iff in Hx. destruct Hx as [_ Hx].
      apply Nat.eqb_eq. exact Hx. }
    destruct (Nat.lt_ge_cases i (length here)) as [Li|Li].
    - rewrite nth_error_app1 in Hi by exact Li. apply nth_error_In in Hi. rewrite (Here a Hi).
      destruct (Nat.lt_ge_cases j (length here)) as [Lj|Lj].
      + rewrite nth_error_app1 in Hj by exact Lj. apply nth_error_In in Hj. rewrite (Here b Hj). lia.
      + rewrite nth_error_app2 in Hj by exact Lj. apply nth_error_In in Hj. apply Low in Hj. lia.
    - rewrite nth_error_app2 in Hi by exact Li. rewrite nth_error_app2 in Hj by lia.
      apply (IH (i - length here) (j - length here) a b (S s)); [exact Hi|exact Hj|lia].
  Qed.
  Lemma class_disjoint a b x :
    In a representatives -> In b representatives ->
    In x (filter (together a) (seq 0 n)) -> In x (filter (together b) (seq 0 n)) -> a = b.
  Proof.
    intros Ha Hb H1 H2. apply representative_iff in Ha, Hb. apply filter_In in H1, H2.
    apply least_unique; try tauto. apply together_trans with x; [tauto|]. apply together_sym. tauto.
  Qed.
  Lemma level_rep i x : at_level naive_scc_ i x ->
    exists r, nth_error representatives i = Some r /\ x < n /\ together r x = true.
  Proof.
    intros (l & Hl & Hx). unfold naive_scc_ in Hl. rewrite nth_error_map in Hl.
    destruct (nth_error representatives i) as [r|]; [|discriminate]. cbn in Hl. injection Hl as <-.
    apply filter_In in Hx. destruct Hx as [H1 H2]. apply in_seq in H1. exists r. split; [reflexivity|]. split; [lia|exact H2].
  Qed.
  Lemma naive_order : scc_order n es naive_scc_.
  Proof.
    split.
    - unfold naive_scc_. generalize representatives_nodup. 
      assert (D : forall a b x, In a representatives -> In b representatives ->
        In x (filter (together a) (seq 0 n)) -> In x (filter (together b) (seq 0 n)) -> a = b) by (intros a b x; apply class_disjoint).
      revert D. generalize representatives as rs. induction rs as [|r rs IH]; intros D Hnd; [constructor|].
      cbn. inversion Hnd as [|? ? Hr Hrs]; subst. apply nodup_app.
      + apply NoDup_filter. apply seq_NoDup.
      + apply IH; [|exact Hrs]. intros a b x Ha Hb. apply D; right; assumption.
      + intros x H1 H2. apply in_concat in H2. destruct H2 as (l & Hl & Hx). apply in_map_iff in Hl.
        destruct Hl as (b & <- & Hb). apply Hr. rewrite (D r b x); [exact Hb|left; reflexivity|right; exact Hb|exact H1|exact Hx].
    - intros a. unfold naive_scc_. rewrite in_concat. split.
      + intros (l & Hl & Ha). apply in_map_iff in Hl. destruct Hl as (r & <- & _). apply filter_In in Ha.
        destruct Ha as [Ha _]. apply in_seq in Ha. lia.
      + intros Ha. destruct (least_exists a Ha) as (r & Hr & Hl & Ht). exists (filter (together r) (seq 0 n)). split.
        * apply in_map_iff. exists r. split; [reflexivity|]. apply representative_iff. auto.
        * apply filter_In. split; [apply in_seq; lia|exact Ht].
    - intros i j a b Hi Hj. apply level_rep in Hi, Hj.
      destruct Hi as (r & Hr & Ha & Tr), Hj as (r' & Hr' & Hb & Tr'). rewrite <- together_spec. split.
      + intros <-. rewrite Hr in Hr'. injection Hr' as <-. apply together_trans with r; [apply together_sym; exact Tr|exact Tr'].
      + intros Ht. assert (E : r = r').
        { apply nth_error_In in Hr, Hr'. apply representative_iff in Hr, Hr'. apply least_unique; try tauto.
          apply together_trans with a; [exact Tr|]. apply together_trans with b; [exact Ht|apply together_sym; exact Tr']. }
        subst r'. pose proof (proj1 (NoDup_nth_error representatives) representatives_nodup) as Inj.
        apply Inj; [apply nth_error_Some; rewrite Hr; discriminate|congruence].
    - intros i j a b Hi Hj He. apply level_rep in Hi, Hj.
      destruct Hi as (r & Hr & Ha & Tr), Hj as (r' & Hr' & Hb & Tr').
      destruct (Nat.le_gt_cases j i) as [L|L]; [exact L|exfalso].
      pose proof (representatives_sorted i j r r' Hr Hr' L) as Hc.
      apply together_spec in Tr, Tr'.
      assert (R1 : reaches (edge es) a b) by (apply reaches_step with b; [exact He|constructor]).
      assert (R2 : reaches (edge es) b a).
      { apply count_equal; [exact Ha|exact R1|].
        pose proof (count_step r a (proj1 Tr)). pose proof (count_step a r (proj2 Tr)).
        pose proof (count_step r' b (proj1 Tr')). pose proof (count_step b r' (proj2 Tr')). lia. }
      assert (E : r = r').
      { apply nth_error_In in Hr, Hr'. apply representative_iff in Hr, Hr'. apply least_unique; try tauto.
        apply together_spec. split; [apply reaches_trans with a; [tauto|apply reaches_trans with b; tauto]|].
        apply reaches_trans with b; [tauto|apply reaches_trans with a; tauto]. }
      subst r'. pose proof (proj1 (NoDup_nth_error representatives) representatives_nodup) as Inj.
      assert (i = j); [|lia]. apply Inj; [apply nth_error_Some; rewrite Hr; discriminate|congruence].
  Qed.
End Naive.
Definition naive_scc (n : nat) (es : list (nat * nat)) : list (list nat) := naive_scc_ n es.
Lemma naive_finds_components : finds_components naive_scc.
Proof. intros n es H. apply naive_order. exact H. Qed.

(** ** Registering the names *)
Lemma definition_key_name d : definition_key d = (name_of d, location_of d).
Proof. destruct d; reflexivity. Qed.
(** The state after registering [ds] without a duplicate. *)
Record registered (ds : list (text * span)) (b : builder) : Prop := {
  r_nodup : NoDup (map fst ds);
  r_names : forall n i l, lookup n (names b) = Some (Some (i, l)) <-> nth_error ds i = Some (n, l);
  r_local : forall n, lookup n (names b) <> Some None;
  r_nodes : nodes b = length ds;
  r_edges : edges b = [] }.
Lemma registered_nil : registered [] empty_builder.
Proof.
  split; cbn; try reflexivity; try discriminate.
  - constructor.
  - intros n i l. split; [discriminate|destruct i; discriminate].
Qed.
Lemma registered_step ds n l b : registered ds b -> ~ In n (map fst ds) ->
  exists b', register n l b = inl b' /\ registered (ds ++ [(n, l)]) b'.
Proof.
  intros R Hn. unfold register.
  assert (E : lookup n (names b) = None).
  { destruct (lookup n (names b)) as [[[i l']|]|] eqn:E; [| |reflexivity].
    - exfalso. apply Hn. apply (r_names _ _ R) in E. apply nth_error_In in E. apply (in_map fst) in E. exact E.
    - exfalso. exact (r_local _ _ R n E). }
  rewrite E. eexists. split; [reflexivity|]. split; cbn [names nodes edges].
  - rewrite map_app. apply nodup_app; [apply R|repeat constructor; intros []|].
    intros x Hx [<-|[]]. exact (Hn Hx).
  - intros m i l'. destruct (text_dec m n) as [->|Hne].
    + rewrite lookup_eq. rewrite (r_nodes _ _ R). split.
      * intros [= <- <-]. rewrite nth_error_app2 by lia. rewrite Nat.sub_diag. reflexivity.
      * intros Hi. destruct (Nat.lt_ge_cases i (length ds)) as [L|L].
        -- rewrite nth_error_app1 in Hi by exact L. apply nth_error_In in Hi. apply (in_map fst) in Hi. contradiction.
        -- rewrite nth_error_app2 in Hi by exact L.
           destruct (i - length ds) as [|k] eqn:Ek; [|destruct k; discriminate].
           cbn in Hi. injection Hi as <-. do 3 f_equal. lia.
    + rewrite lookup_neq by exact Hne. rewrite (r_names _ _ R). split; intros Hi.
      * rewrite nth_error_app1; [exact Hi|]. apply nth_error_Some. congruence.
      * destruct (Nat.lt_ge_cases i (length ds)) as [L|L]; [rewrite nth_error_app1 in Hi by exact L; exact Hi|].
        rewrite nth_error_app2 in Hi by exact L. destruct (i - length ds) as [|k]; [|destruct k; discriminate].
        cbn in Hi. congruence.
  - intros m. destruct (text_dec m n) as [->|Hne]; [rewrite lookup_eq; discriminate|].
    rewrite lookup_neq by exact Hne. apply R.
  - rewrite app_length, (r_nodes _ _ R). cbn. lia.
  - apply R.
Qed.
Lemma registered_duplicate ds n l b : registered ds b -> In n (map fst ds) ->
  exists l', In (n, l') ds /\ register n l b = inr (DuplicateName l l' n).
Proof.
  intros R Hn. apply in_map_iff in Hn. destruct Hn as ([n' l'] & E & Hin). cbn in E. subst n'.
  exists l'. split; [exact Hin|]. apply In_nth_error in Hin. destruct Hin as [i Hi].
  apply (r_names _ _ R) in Hi. unfold register. rewrite Hi. reflexivity.
Qed.
Lemma register_all_spec ds : forall done b, registered done b ->
  match register_all ds b with
  | inl b' => registered (done ++ ds) b'
  | inr e => exists before l l' after, ds = before ++ (duplicate_name e, l) :: after /\
      NoDup (map fst (done ++ before)) /\ In (duplicate_name e, l') (done ++ before) /\
      location_a e = l /\ location_b e = l'
  end.
Proof.
  induction ds as [|[n l] ds IH]; intros done b R; cbn [register_all].
  - rewrite app_nil_r. exact R.
  - destruct (in_dec text_dec n (map fst done)) as [Hin|Hn].
    + destruct (registered_duplicate done n l b R Hin) as (l' & Hl' & ->).
      exists [], l, l', ds. cbn [duplicate_name location_a location_b app]. rewrite app_nil_r.
      split; [reflexivity|split; [apply R|auto]].
    + destruct (registered_step done n l b R Hn) as (b' & -> & R').
      specialize (IH _ _ R'). destruct (register_all ds b') as [b''|e].
      * rewrite <- app_assoc in IH. exact IH.
      * destruct IH as (before & l1 & l2 & after & -> & Hnd & Hin & Ha & Hb).
        exists ((n, l) :: before), l1, l2, after. rewrite <- app_assoc in Hnd, Hin. cbn [app] in *. auto.
Qed.

(** ** Registering the references *)
Section References.
  Variable b0 : builder.
  Variable ds : list definition.
  Hypothesis R0 : registered (map definition_key ds) b0.
  Definition defs (n : text) : option nat :=
    match lookup n (names b0) with Some (Some (i, _)) => Some i | _ => None end.
  Lemma defs_spec n i : defs n = Some i <-> exists d, nth_error ds i = Some d /\ name_of d = n.
  Proof.
    unfold defs. split.
    - intros H. destruct (lookup n (names b0)) as [[[j l]|]|] eqn:E; try discriminate. injection H as ->.
      apply (r_names _ _ R0) in E. rewrite nth_error_map in E. destruct (nth_error ds i) as [d|]; [|discriminate].
      cbn in E. rewrite definition_key_name in E. injection E as E _. exists d. auto.
    - intros (d & Hd & <-).
      assert (E : nth_error (map definition_key ds) i = Some (name_of d, location_of d)).
      { rewrite nth_error_map, Hd. cbn. rewrite definition_key_name. reflexivity. }
      apply (r_names _ _ R0) in E. rewrite E. reflexivity.
  Qed.
  Lemma finds0 b : names b = names b0 -> finds defs nothing b.
  Proof.
    intros E n i Hd _. rewrite E. unfold defs in Hd.
    destruct (lookup n (names b0)) as [[[j l]|]|]; try discriminate. injection Hd as ->. exists l. reflexivity.
  Qed.
  Lemma only0 b : names b = names b0 -> only defs nothing b.
  Proof. intros E n i l Hl. rewrite E in Hl. unfold defs. rewrite Hl. split; [reflexivity|intros []]. Qed.

  Lemma definition_step i d b : nth_error ds i = Some d -> names b = names b0 ->
    exists b', register_definition d b = Some b' /\ names b' = names b0 /\ nodes b' = nodes b /\
      (forall e, In e (edges b) -> In e (edges b')) /\
      (forall n j, definition_uses Counted d n -> defs n = Some j -> In (i, j) (edges b')) /\
      (forall c j, In (c, j) (edges b') -> In (c, j) (edges b) \/
         (c = i /\ exists n, defs n = Some j /\ definition_uses Possible d n)).
  Proof.
    intros Hi En.
    assert (Start : start_at (name_of d) b = Some (Builder (names b) (nodes b) (edges b) i)).
    { assert (D : defs (name_of d) = Some i) by (apply defs_spec; exists d; auto).
      unfold start_at. rewrite En. unfold defs in D. destruct (lookup (name_of d) (names b0)) as [[[j l]|]|]; try discriminate.
      injection D as ->. reflexivity. }
    set (b1 := Builder (names b) (nodes b) (edges b) i) in *.
    assert (En1 : names b1 = names b0) by exact En.
    destruct d as [f|c]; cbn [register_definition name_of] in *.
    - unfold register_references. rewrite Start.
      set (b2 := visit_all define_option (f_arguments f) b1).
      assert (G1 : grows b1 b2) by apply args_grow.
      assert (G2 : grows b2 (visit_all visit_statement (f_body f) b2)) by apply statements_grow.
      eexists. split; [reflexivity|]. split; [exact En|]. split; [|split; [|split]].
      + destruct G2 as (N2 & _ & _). destruct G1 as (N1 & _ & _). exact (eq_trans N2 N1).
      + intros e He. apply (grows_in _ _ e G2). apply (grows_in _ _ e G1). exact He.
      + intros n j Hu Hd. cbn [definition_uses] in Hu.
        pose proof (proj1 (proj2 (uses_recorded defs (fun a => In (Some a) (f_arguments f))))) as U.
        specialize (U (f_body f) n Hu b2). replace i with (current_function b2) by (destruct G1 as (_ & -> & _); reflexivity).
        apply U; [|exact Hd]. apply (finds_weaken defs (also nothing (fun a => In (Some a) (f_arguments f)))).
        * apply (finds_hides defs _ _ b1); [apply finds0; exact En1|apply args_hide].
        * intros m [[]|Hm]. exact Hm.
      + intros c j Hin.
        assert (Ho : only defs (fun a => In (Some a) (f_arguments f)) b2).
        { apply (only_weaken defs (also nothing (fun a => In (Some a) (f_arguments f)))).
          - apply (only_hides defs _ _ b1); [apply only0; exact En1|apply args_hide].
          - intros n Hn. right. exact Hn. }
        destruct (statements_only defs (f_body f) _ b2 (Forall_all _ _ (fun s => proj1 (proj2 (trees_only defs)) s)) Ho c j Hin) as [X|(Hc & n & Hd & Hu)].
        * left. revert X. unfold b2. assert (Ed : forall args b, edges (visit_all define_option args b) = edges b).
          { clear. induction args as [|[a|] args IH]; intros b; [reflexivity| |]; cbn; [exact (IH (define a b))|exact (IH b)]. }
          rewrite Ed. auto.
        * right. split; [|exists n; auto]. rewrite Hc. destruct G1 as (_ & -> & _). reflexivity.
    - unfold register_references_constant. rewrite Start. fold b1.
      pose proof (constant_keeps (c_value c) b1) as [G N].
      eexists. split; [reflexivity|]. split; [rewrite N; exact En1|]. split; [|split; [|split]].
      + destruct G as (-> & _ & _). reflexivity.
      + intros e He. apply (grows_in _ _ e G). exact He.
      + intros n j Hu Hd. apply (constant_records defs nothing (c_value c) n Hu b1); [apply finds0; exact En1|exact Hd].
      + intros k j Hin. destruct (constant_only defs nothing (c_value c) b1 (only0 b1 En1) k j Hin) as [X|(Hc & n & Hd & Hu)];
          [left; exact X|right]. split; [exact Hc|exists n; auto].
  Qed.

  Lemma definitions_step rest : forall done b, ds = done ++ rest -> names b = names b0 ->
    exists b', register_definitions rest b = Some b' /\ nodes b' = nodes b /\
      (forall e, In e (edges b) -> In e (edges b')) /\
      (forall i d n j, length done <= i -> nth_error ds i = Some d -> definition_uses Counted d n ->
         defs n = Some j -> In (i, j) (edges b')) /\
      (forall c j, In (c, j) (edges b') -> In (c, j) (edges b) \/
         exists d n, nth_error ds c = Some d /\ defs n = Some j /\ definition_uses Possible d n).
  Proof.
    induction rest as [|d rest IH]; intros done b E En; cbn [register_definitions].
    - exists b. split; [reflexivity|]. split; [reflexivity|]. split; [auto|]. split; [|auto].
      intros i d n j Hi Hd. rewrite app_nil_r in E. subst done.
      assert (i < length ds) by (apply nth_error_Some; congruence). lia.
    - assert (Hd : nth_error ds (length done) = Some d).
      { rewrite E. rewrite nth_error_app2 by lia. rewrite Nat.sub_diag. reflexivity. }
      destruct (definition_step (length done) d b Hd En) as (b1 & -> & En1 & Nn1 & Keep1 & Rec1 & Exp1).
      destruct (IH (done ++ [d]) b1) as (b2 & -> & Nn2 & Keep2 & Rec2 & Exp2).
      { rewrite <- app_assoc. exact E. } { exact En1. }
      exists b2. split; [reflexivity|]. split; [congruence|]. split; [auto|]. split.
      + intros i d' n j Hi Hd' Hu Hj. destruct (Nat.eq_dec i (length done)) as [->|Hne].
        * rewrite Hd in Hd'. injection Hd' as <-. apply Keep2. apply (Rec1 n j); assumption.
        * apply (Rec2 i d' n j); try assumption. rewrite app_length. cbn. lia.
      + intros c j Hin. destruct (Exp2 c j Hin) as [X|X]; [|right; exact X].
        destruct (Exp1 c j X) as [Y|(-> & n & Hn & Hu)]; [left; exact Y|right]. exists d, n. auto.
  Qed.
End References.

(** ** From indices to definitions *)
Lemma take_spec d : forall i slots, nth_error slots i = Some (Some d) ->
  exists slots', take i slots = Some (d, slots') /\ forall j, j <> i -> nth_error slots' j = nth_error slots j.
Proof.
  induction i as [|i IH]; intros [|s slots] H; try discriminate.
  - cbn in H. injection H as ->. exists (None :: slots). split; [reflexivity|].
    intros [|j] Hj; [contradiction|reflexivity].
  - cbn in H. destruct (IH slots H) as (slots' & E & K). exists (s :: slots'). split.
    + destruct s; cbn; rewrite E; reflexivity.
    + intros [|j] Hj; [reflexivity|]. cbn. apply K. congruence.
Qed.
Lemma take_level_spec (ds : list definition) level : forall slots, NoDup level ->
  (forall i, In i level -> exists d, nth_error ds i = Some d /\ nth_error slots i = Some (Some d)) ->
  exists g slots', take_level level slots = Some (g, slots') /\ Forall2 (fun i d => nth_error ds i = Some d) level g /\
    forall j, ~ In j level -> nth_error slots' j = nth_error slots j.
Proof.
  induction level as [|i level IH]; intros slots Hnd H; cbn [take_level].
  - exists [], slots. split; [reflexivity|]. split; [constructor|auto].
  - inversion Hnd as [|? ? Hi Hnd']; subst. destruct (H i (or_introl eq_refl)) as (d & Hd & Hs).
    destruct (take_spec d i slots Hs) as (slots1 & -> & K1).
    destruct (IH slots1 Hnd') as (g & slots2 & -> & F & K2).
    { intros j Hj. destruct (H j (or_intror Hj)) as (d' & Hd' & Hs'). exists d'. split; [exact Hd'|].
      rewrite K1; [exact Hs'|]. intros ->. contradiction. }
    exists (d :: g), slots2. split; [reflexivity|]. split; [constructor; assumption|].
    intros j Hj. rewrite K2, K1; [reflexivity| |]; intros X; apply Hj; [left; congruence|right; exact X].
Qed.
Lemma take_levels_spec (ds : list definition) levels : forall slots, NoDup (concat levels) ->
  (forall i, In i (concat levels) -> exists d, nth_error ds i = Some d /\ nth_error slots i = Some (Some d)) ->
  exists groups, take_levels levels slots = Some groups /\
    Forall2 (Forall2 (fun i d => nth_error ds i = Some d)) levels groups.
Proof.
  induction levels as [|level levels IH]; intros slots Hnd H; cbn [take_levels].
  - exists []. split; [reflexivity|constructor].
  - cbn [concat] in Hnd, H. apply NoDup_app_split in Hnd. destruct Hnd as (N1 & N2 & D).
    destruct (take_level_spec ds level slots N1) as (g & slots1 & -> & F & K).
    { intros i Hi. apply H. apply in_or_app. left. exact Hi. }
    destruct (IH slots1 N2) as (groups & -> & FF).
    { intros i Hi. destruct (H i) as (d & Hd & Hs); [apply in_or_app; right; exact Hi|].
      exists d. split; [exact Hd|]. rewrite K; [exact Hs|]. intros X. exact (D i X Hi). }
    exists (g :: groups). split; [reflexivity|constructor; assumption].
Qed.
Lemma permutation_indices (ds : list definition) is g :
  NoDup is -> (forall i, In i is <-> i < length ds) -> Forall2 (fun i d => nth_error ds i = Some d) is g -> Permutation g ds.
Proof.
  intros Hnd Hall F.
  assert (P : Permutation is (seq 0 (length ds))).
  { apply NoDup_Permutation; [exact Hnd|apply seq_NoDup|]. intros i. rewrite Hall, in_seq. lia. }
  assert (E : forall is g, Forall2 (fun i d => nth_error ds i = Some d) is g -> map (nth_error ds) is = map Some g).
  { clear. induction 1; cbn; [reflexivity|congruence]. }
  apply E in F. apply (Permutation_map (nth_error ds)) in P. rewrite F in P.
  assert (S : map (nth_error ds) (seq 0 (length ds)) = map Some ds).
  { clear. assert (G : forall ds pre : list definition, map (nth_error (pre ++ ds)) (seq (length pre) (length ds)) = map Some ds); [|exact (G ds [])].
    clear ds. induction ds as [|d ds IH]; intros pre; [reflexivity|]. cbn [length seq map]. f_equal.
    - rewrite nth_error_app2 by lia. rewrite Nat.sub_diag. reflexivity.
    - specialize (IH (pre ++ [d])). rewrite <- app_assoc, app_length in IH. cbn [length app] in IH.
      rewrite Nat.add_1_r in IH. exact IH. }
  rewrite S in P. apply Permutation_map_inv in P. destruct P as (ds' & X & P).
  assert (g = ds').
  { clear - X. revert ds' X. induction g as [|d g IH]; intros [|d' ds'] X; cbn in X; try discriminate X; [reflexivity|].
    injection X as E1 E2. f_equal; [congruence|]. apply IH. exact E2. }
  subst ds'. apply Permutation_sym. exact P.
Qed.
Lemma Forall2_concat {A B} (P : A -> B -> Prop) l g : Forall2 (Forall2 P) l g -> Forall2 P (concat l) (concat g).
Proof. induction 1; cbn; [constructor|apply Forall2_app; assumption]. Qed.
Lemma Forall2_nth {A B} (P : A -> B -> Prop) l g : Forall2 P l g -> forall i b, nth_error g i = Some b ->
  exists a, nth_error l i = Some a /\ P a b.
Proof.
  induction 1 as [|a b l g Hab F IH]; intros [|i] c Hc; try discriminate.
  - cbn in Hc. injection Hc as <-. exists a. auto.
  - cbn in Hc. destruct (IH i c Hc) as (a' & Ha & Hp). exists a'. auto.
Qed.
Lemma Forall2_in {A B} (P : A -> B -> Prop) l g b : Forall2 P l g -> In b g -> exists a, In a l /\ P a b.
Proof.
  induction 1 as [|a c l g Hab F IH]; intros []; [exists a; subst; split; [left; reflexivity|assumption]|].
  destruct (IH H) as (a' & Ha & Hp). exists a'. split; [right; exact Ha|exact Hp].
Qed.

(** ** The whole function *)

Section Order.
  Variable scc : nat -> list (nat * nat) -> list (list nat).
  Hypothesis contract : finds_components scc.
  Variables (fs : list function) (cs : list module_constant).
  Let ds := definitions fs cs.
  Lemma keys_names : map fst (map definition_key ds) = map name_of ds.
  Proof. rewrite map_map. apply map_ext. intros d. rewrite definition_key_name. reflexivity. Qed.
  Theorem order_spec : NoDup (map name_of ds) ->
    exists groups, into_dependency_order scc fs cs = Ordered groups /\ Permutation (concat groups) ds /\
    (forall i j d d', in_group groups i d -> in_group groups j d' ->
       (one_uses Counted ds d d' -> j <= i) /\
       (i = j -> reaches (one_uses Possible ds) d d') /\
       (reaches (one_uses Counted ds) d d' -> reaches (one_uses Counted ds) d' d -> i = j)).
  Proof.
    intros Hnd. unfold into_dependency_order. fold ds.
    pose proof (register_all_spec (map definition_key ds) [] empty_builder registered_nil) as R.
    destruct (register_all (map definition_key ds) empty_builder) as [b0|e].
    2:{ exfalso. destruct R as (before & l & l' & after & E & _ & Hin & _). cbn [app] in Hin.
        rewrite <- keys_names, E, map_app in Hnd. cbn [map fst] in Hnd. apply NoDup_remove_2 in Hnd.
        apply Hnd. apply in_or_app. left. apply (in_map fst) in Hin. exact Hin. }
    cbn [app] in R.
    destruct (definitions_step b0 ds R ds [] b0 eq_refl eq_refl) as (b & -> & Nn & _ & Rec & Exp).
    rewrite (r_edges _ _ R) in Exp. rewrite (r_nodes _ _ R), map_length in Nn. rewrite Nn.
    pose proof (defs_spec b0 ds R) as D.
    assert (Range : in_range (length ds) (edges b)).
    { intros x y Hxy. destruct (Exp x y Hxy) as [[]|(d & n & Hd & Hn & _)]. apply D in Hn. destruct Hn as (d' & Hd' & _).
      split; apply nth_error_Some; congruence. }
    pose proof (contract _ _ Range) as [Once All Together First].
    set (levels := scc (length ds) (edges b)) in *.
    destruct (take_levels_spec ds levels (map Some ds) Once) as (groups & -> & F).
    { intros i Hi. apply All in Hi. destruct (nth_error ds i) as [d|] eqn:E; [|apply nth_error_None in E; lia].
      exists d. split; [reflexivity|]. rewrite nth_error_map, E. reflexivity. }
    exists groups. split; [reflexivity|]. split.
    { apply (permutation_indices ds (concat levels)); [exact Once|exact All|]. apply Forall2_concat. exact F. }
    assert (At : forall i d, in_group groups i d -> exists a, at_level levels i a /\ nth_error ds a = Some d).
    { intros i d (g & Hg & Hd). destruct (Forall2_nth _ _ _ F i g Hg) as (l & Hl & Fl).
      destruct (Forall2_in _ _ _ d Fl Hd) as (a & Ha & Hda). exists a. split; [exists l; auto|exact Hda]. }
    assert (Def : forall a d, nth_error ds a = Some d -> defs b0 (name_of d) = Some a).
    { intros a d Hd. apply D. exists d. auto. }
    assert (Idx : forall a a' d, nth_error ds a = Some d -> nth_error ds a' = Some d -> a = a').
    { intros a a' d H1 H2. apply Def in H1, H2. congruence. }
    assert (CountedEdge : forall a a' d d', nth_error ds a = Some d -> nth_error ds a' = Some d' ->
      definition_uses Counted d (name_of d') -> edge (edges b) a a').
    { intros a a' d d' Hd Hd' Hu. apply (Rec a d (name_of d') a'); [apply Nat.le_0_l|exact Hd|exact Hu|apply Def; exact Hd']. }
    assert (CountedReach : forall d d', reaches (one_uses Counted ds) d d' -> forall a a',
      nth_error ds a = Some d -> nth_error ds a' = Some d' -> reaches (edge (edges b)) a a').
    { induction 1 as [d|d d1 d2 (Hd & Hd1 & Hu) Hr IH]; intros a a' Ha Ha'.
      - rewrite (Idx a a' d Ha Ha'). constructor.
      - apply In_nth_error in Hd1. destruct Hd1 as [a1 Ha1].
        apply reaches_step with a1; [apply (CountedEdge a a1 d d1); assumption|auto]. }
    assert (PossibleReach : forall a a', reaches (edge (edges b)) a a' -> forall d d',
      nth_error ds a = Some d -> nth_error ds a' = Some d' -> reaches (one_uses Possible ds) d d').
    { induction 1 as [a|a a1 a2 He Hr IH]; intros d d' Ha Ha'.
      - rewrite Ha in Ha'. injection Ha' as <-. constructor.
      - destruct (Exp a a1 He) as [[]|(d0 & n & Hd0 & Hn & Hu)].
        rewrite Ha in Hd0. injection Hd0 as <-. apply D in Hn. destruct Hn as (d1 & Hd1 & <-).
        apply reaches_step with d1; [|apply IH; assumption].
        split; [apply nth_error_In in Ha; exact Ha|split; [apply nth_error_In in Hd1; exact Hd1|exact Hu]]. }
    intros i j d d' Hi Hj. destruct (At i d Hi) as (a & La & Ha), (At j d' Hj) as (a' & La' & Ha').
    split; [|split].
    - intros (_ & _ & Hu). apply (First i j a a' La La'). apply (CountedEdge a a' d d'); assumption.
    - intros E. apply (Together i j a a' La La') in E. destruct E as [E _]. apply (PossibleReach a a'); assumption.
    - intros H1 H2. apply (Together i j a a' La La'). split; [apply (CountedReach d d')|apply (CountedReach d' d)]; assumption.
  Qed.
  Theorem duplicate_spec :
    match into_dependency_order scc fs cs with
    | Ordered _ => NoDup (map name_of ds)
    | Duplicate e => exists before d d' after, ds = before ++ d' :: after /\ NoDup (map name_of before) /\ In d before /\
        name_of d = name_of d' /\ e = DuplicateName (location_of d') (location_of d) (name_of d')
    | Panic => False
    end.
  Proof.
    pose proof (register_all_spec (map definition_key ds) [] empty_builder registered_nil) as R.
    destruct (register_all (map definition_key ds) empty_builder) as [b0|e] eqn:E0.
    - cbn [app] in R. assert (Hnd : NoDup (map name_of ds)) by (rewrite <- keys_names; apply R).
      destruct (order_spec Hnd) as (groups & -> & _). exact Hnd.
    - unfold into_dependency_order. fold ds. rewrite E0.
      destruct R as (before & l & l' & after & E & Hnd & Hin & Ha & Hb). cbn [app] in Hin, Hnd.
      apply map_eq_app in E. destruct E as (before' & rest & Eds & <- & E).
      destruct rest as [|d' after']; [discriminate|]. cbn [map] in E. injection E as E1 <-.
      rewrite definition_key_name in E1. injection E1 as En El.
      apply in_map_iff in Hin. destruct Hin as (d & Ed & Hd). rewrite definition_key_name in Ed. injection Ed as Edn Edl.
      exists before', d, d', after'. split; [exact Eds|]. split.
      { rewrite map_map in Hnd. rewrite (map_ext name_of (fun x => fst (definition_key x))); [exact Hnd|]. intros x. destruct x; reflexivity. }
      split; [exact Hd|]. split; [congruence|]. destruct e as [la lb n]. cbn in *. congruence.
  Qed.
End Order.
