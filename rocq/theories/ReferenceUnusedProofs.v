(** What is found to be unused. *)
From Coq Require Import NArith List Bool Arith Lia Permutation.
From Verif Require Import Text TextProofs Reference ReferenceSpec ReferenceMarkProofs ReferenceProofs
  ReferenceStepProofs.
Import ListNotations.
Local Open Scope nat_scope.
Local Open Scope list_scope.

Section Found.
Variables (l : ledger) (t : tracker).
Hypothesis S : sound l.
Hypothesis T : tracks l t.

Lemma tracks_inverse : inverse t.
Proof.
  intros e i H. apply by_left_in; [apply (t_bij l t T)|]. now apply by_right_in; [apply (t_bij l t T)|].
Qed.
Lemma right_left e i : by_left e (entities t) = Some i -> by_right i (entities t) = Some e.
Proof.
  intros H. apply by_right_in; [apply (t_bij l t T)|]. now apply by_left_in; [apply (t_bij l t T)|].
Qed.

(** An entity with a node is an item. *)
Lemma entity_item e i : by_left e (entities t) = Some i ->
  exists it, item_at l i it /\ i_name it = name e /\ i_known it <> Begun
    /\ (forall k w, i_known it = Known k w -> get entity_eqb e (entity_information t) = Some (Information w k))
    /\ ((exists s, e = Entity (i_name it) (lay s) /\ i_sort it = s /\ scope l (i_name it) s = Some i)
        \/ (layer_ e = LShadowed /\ scope l (i_name it) (i_sort it) <> Some i /\ exists k w, i_known it = Known k w)).
Proof.
  intros H. destruct e as [n ly].
  assert (Q : (exists s, ly = lay s) \/ ly = LShadowed).
  { destruct ly; [left; now exists SType|left; now exists SValue|now right|left; now exists SModule]. }
  destruct Q as [[s ->]| ->].
  - pose proof (t_info l t T n s) as G. rewrite (t_scope l t T) in H. rewrite H in G.
    destruct (s_scope l S n s i H) as (it & AT & NM & SR & NB). exists it.
    split; [exact AT|]. split; [exact NM|]. split; [exact NB|].
    unfold item_at in AT. rewrite AT in G. split.
    + intros k w K. rewrite K in G. exact G.
    + left. exists s. rewrite NM. auto.
  - pose proof (t_shadow l t T n) as G. rewrite H in G.
    destruct G as (it & k & w & AT & NM & K & SC & G). exists it.
    split; [exact AT|]. split; [exact NM|]. split; [rewrite K; discriminate|]. split.
    + intros k' w' K'. rewrite K in K'. inversion K'; subst. exact G.
    + right. split; [reflexivity|]. rewrite NM. split; [exact SC|]. eauto.
Qed.
Lemma key_left e : key (entity_information t) e -> exists i, by_left e (entities t) = Some i.
Proof.
  intros K. destruct e as [n ly].
  assert (G : get entity_eqb (Entity n ly) (entity_information t) <> None).
  { intros G. apply get_none in G; [now apply G|apply entity_eqb_eq]. }
  assert (Q : (exists s, ly = lay s) \/ ly = LShadowed).
  { destruct ly; [left; now exists SType|left; now exists SValue|now right|left; now exists SModule]. }
  destruct Q as [[s ->]| ->].
  - rewrite (t_info l t T) in G. rewrite (t_scope l t T).
    destruct (scope l n s) as [i|]; [eauto|congruence].
  - pose proof (t_shadow l t T n) as X. destruct (by_left (Entity n LShadowed) (entities t)) as [i|]; [eauto|].
    destruct X as [X _]. congruence.
Qed.
Lemma known_key e i it k w :
  by_left e (entities t) = Some i -> item_at l i it -> i_known it = Known k w -> key (entity_information t) e.
Proof.
  intros H AT K. destruct (entity_item e i H) as (x & AX & _ & _ & G & _).
  unfold item_at in *. rewrite AT in AX. inversion AX; subst x. specialize (G k w K).
  apply get_some_in in G; [|apply entity_eqb_eq]. apply in_map_iff. now exists (e, Information w k).
Qed.
Lemma key_item e : key (entity_information t) e ->
  exists i it k w, by_left e (entities t) = Some i /\ item_at l i it /\ i_name it = name e
    /\ i_known it = Known k w /\ get entity_eqb e (entity_information t) = Some (Information w k).
Proof.
  intros K. destruct (key_left e K) as [i H]. destruct (entity_item e i H) as (it & AT & NM & NB & G & L).
  destruct (i_known it) as [| |k w] eqn:KN; [|now elim NB|].
  - exfalso. destruct L as [(s & -> & SR & SC)|(_ & _ & k & w & X)]; [|congruence].
    pose proof (t_info l t T (i_name it) s) as I. rewrite SC in I.
    unfold item_at in AT. rewrite AT, KN in I. cbn in I.
    apply get_none in I; [now apply I|apply entity_eqb_eq].
  - exists i, it, k, w. repeat split; auto.
Qed.

(** ** Entries and items *)

Definition index (p : entity * information) : nat :=
  match by_left (fst p) (entities t) with Some i => i | None => 0 end.

Lemma entry_shows p : In p (entity_information t) ->
  exists it k w, by_left (fst p) (entities t) = Some (index p) /\ item_at l (index p) it
    /\ i_known it = Known k w /\ shown p = (i_name it, k, w).
Proof.
  intros I. destruct p as [e inf]. assert (K : key (entity_information t) e) by (apply in_map_iff; now exists (e, inf)).
  destruct (key_item e K) as (i & it & k & w & H & AT & NM & KN & G).
  unfold index. cbn [fst]. rewrite H. exists it, k, w. repeat split; auto.
  apply (get_in entity_eqb entity_eqb_eq) in I; [|apply (t_keys l t T)]. rewrite G in I. inversion I; subst inf.
  unfold shown. cbn. now rewrite NM.
Qed.
Lemma indexes_distinct u : (forall p, In p u -> In p (entity_information t)) -> NoDup (map fst u) ->
  NoDup (map index u).
Proof.
  induction u as [|p u IH]; cbn; intros SUB N; [constructor|]. inversion N; subst.
  constructor; [|apply IH; auto]. intros I. apply in_map_iff in I as [q [E I]].
  destruct (entry_shows p) as (_ & _ & _ & Hp & _); [auto|].
  destruct (entry_shows q) as (_ & _ & _ & Hq & _); [auto|].
  rewrite E in Hq. pose proof (bij_inj _ _ _ _ (t_bij l t T) Hp Hq) as X.
  apply H1. rewrite X. now apply in_map.
Qed.
Lemma entries_show u : (forall p, In p u -> In p (entity_information t)) ->
  Forall2 (shows l) (map index u) (map shown u).
Proof.
  induction u as [|p u IH]; cbn; intros SUB; constructor; [|apply IH; auto].
  destruct (entry_shows p) as (it & k & w & _ & AT & KN & E); [auto|]. exists it, k, w. auto.
Qed.

Variables (publics : list entity) (all : bimap).
Hypothesis PP : Permutation publics (public_entities t).
Hypothesis PA : Permutation all (entities t).
Let u := unused publics all t.

Lemma unused_sub p : In p u -> In p (entity_information t).
Proof. destruct (unused_spec t tracks_inverse publics all PP PA) as [L _]. now apply less_in. Qed.
Lemma unused_nodup : NoDup (map fst u).
Proof.
  destruct (unused_spec t tracks_inverse publics all PP PA) as [[g E] _]. unfold u. rewrite E.
  apply nodup_filter_map, (t_keys l t T).
Qed.
Lemma unused_entry e i it k w :
  by_left e (entities t) = Some i -> item_at l i it -> i_known it = Known k w ->
  (In (e, Information w k) u <-> ~ reached t e).
Proof.
  intros H AT K. destruct (unused_spec t tracks_inverse publics all PP PA) as [L U].
  pose proof (known_key e i it k w H AT K) as KE. rewrite <- (U e KE). split.
  - intros I. apply in_map_iff. now exists (e, Information w k).
  - intros KU. destruct (entity_item e i H) as (x & AX & _ & _ & G & _).
    unfold item_at in *. rewrite AT in AX. inversion AX; subst x. specialize (G k w K).
    apply get_some_in in G; [|apply entity_eqb_eq].
    apply (less_in_key _ _ _ L G KU).
Qed.

(** ** Definitions *)

Lemma defined_left i it : item_at l i it -> lasting (i_known it) = true ->
  by_left (Entity (i_name it) (lay (i_sort it))) (entities t) = Some i.
Proof. intros AT L. rewrite (t_scope l t T). now apply (s_lasting l S). Qed.
Lemma item_fun i x y : item_at l i x -> item_at l i y -> x = y.
Proof. unfold item_at. congruence. Qed.
Lemma module_not_defined i it : item_at l i it -> i_sort it = SModule -> defined_item it = false.
Proof.
  intros AT SM. unfold defined_item. destruct (i_known it) as [| |k w] eqn:K; [reflexivity| |].
  - destruct (s_begun l S i it AT K). congruence.
  - pose proof (s_sort l S i it k w AT K) as O. rewrite SM in O. destruct k; cbn in *; congruence.
Qed.
Lemma edge_ref i j : In (i, j) (edges t) <-> In (i, j) (refs l).
Proof. now rewrite (t_edges l t T). Qed.

Lemma reached_used e : reached t e -> forall i it,
  by_left e (entities t) = Some i -> item_at l i it -> defined_item it = true -> used l i.
Proof.
  induction 1 as [e i0 I BL|e m NP X|e e' R IH K (i0 & j & BL & E & BR)]; intros i it H AT D.
  - destruct e as [n ly]. apply (t_public l t T) in I as (s & i1 & x & -> & SC & AX & PX).
    rewrite (t_scope l t T), SC in H. inversion H; subst i1. exact (used_public l _ x AX PX).
  - change LModule with (lay SModule) in H. rewrite (t_scope l t T) in H.
    destruct (s_scope l S _ _ _ H) as (x & AX & _ & SR & _).
    pose proof (item_fun _ _ _ AT AX). subst x. rewrite (module_not_defined i it AT SR) in D. discriminate.
  - pose proof (tracks_inverse _ _ BR) as H'. rewrite H in H'. inversion H'; subst j.
    apply edge_ref in E. destruct (s_refs l S _ _ E) as (x & y & AX & AY & _ & Q).
    pose proof (item_fun _ _ _ AT AY). subst y.
    destruct Q as [[DX _]|[SM _]]; [|rewrite (module_not_defined i it AT SM) in D; discriminate].
    eapply used_reference; [|exact E]. eapply IH; eauto.
Qed.

Lemma used_not_begun i : used l i -> exists it, item_at l i it /\ i_known it <> Begun.
Proof.
  intros [i' it AT P|i0 it0 k w j jt AI K D R AJ SM|i0 j U R].
  - exists it. split; [exact AT|]. destruct (s_public l S _ _ AT P) as (k & w & -> & _). discriminate.
  - destruct (s_refs l S _ _ R) as (x & y & _ & AY & B & _). eauto.
  - destruct (s_refs l S _ _ R) as (x & y & _ & AY & B & _). eauto.
Qed.

Lemma used_reached i : used l i -> forall it k w,
  item_at l i it -> i_known it = Known k w -> defined_kind k = true ->
  reached t (Entity (i_name it) (lay (i_sort it))).
Proof.
  induction 1 as [i x AX P|i x k0 w0 j jt AI K0 D0 R AJ SM|i j U IH R]; intros it k w AT K D.
  - pose proof (item_fun _ _ _ AT AX). subst x.
    assert (BL : by_left (Entity (i_name it) (lay (i_sort it))) (entities t) = Some i).
    { apply defined_left; [exact AT|]. rewrite K. cbn. now destruct k. }
    eapply reached_public; [|exact BL]. apply (t_public l t T).
    exists (i_sort it), i, it. rewrite (t_scope l t T) in BL. auto.
  - pose proof (item_fun _ _ _ AT AJ). subst jt. pose proof (module_not_defined j it AT SM) as X.
    unfold defined_item in X. rewrite K in X. congruence.
  - destruct (s_refs l S _ _ R) as (x & y & AX & AY & _ & Q).
    pose proof (item_fun _ _ _ AT AY). subst y.
    assert (DJ : defined_item it = true) by (unfold defined_item; now rewrite K).
    destruct Q as [[DX _]|[SM _]]; [|rewrite (module_not_defined j it AT SM) in DJ; discriminate].
    destruct (used_not_begun i U) as (x' & AX' & NB). pose proof (item_fun _ _ _ AX AX'). subst x'.
    unfold defined_item in DX. destruct (i_known x) as [| |kx wx] eqn:KX; [discriminate|now elim NB|].
    assert (BI : by_left (Entity (i_name x) (lay (i_sort x))) (entities t) = Some i).
    { apply defined_left; [exact AX|]. rewrite KX. cbn. now destruct kx. }
    assert (BJ : by_left (Entity (i_name it) (lay (i_sort it))) (entities t) = Some j).
    { apply defined_left; [exact AT|]. rewrite K. cbn. now destruct k. }
    eapply reached_next; [eapply IH; eauto|eapply known_key; eauto|].
    exists i, j. split; [exact BI|]. split; [now apply edge_ref|now apply right_left].
Qed.

Theorem unused_definitions :
  exists is,
    NoDup is
    /\ Forall2 (shows l) is (filter (fun x => defined_kind (snd (fst x))) (map shown u))
    /\ forall i, In i is <-> exists it k w,
         item_at l i it /\ i_known it = Known k w /\ defined_kind k = true /\ ~ used l i.
Proof.
  set (u' := filter (fun p => defined_kind (kind (snd p))) u).
  assert (SUB : forall p, In p u' -> In p (entity_information t)).
  { intros p I. apply filter_In in I as [I _]. now apply unused_sub. }
  exists (map index u'). split; [|split].
  - apply indexes_distinct; [exact SUB|]. apply nodup_filter_map, unused_nodup.
  - assert (E : filter (fun x => defined_kind (snd (fst x))) (map shown u) = map shown u').
    { unfold u'. generalize u. intros v. induction v as [|p v IH]; cbn; [reflexivity|].
      destruct (defined_kind (kind (snd p))); cbn; now rewrite IH. }
    rewrite E. apply entries_show, SUB.
  - intros i. rewrite in_map_iff. split.
    + intros [p [<- I]]. destruct (entry_shows p (SUB p I)) as (it & k & w & BL & AT & K & E).
      apply filter_In in I as [I D]. exists it, k, w. split; [exact AT|]. split; [exact K|].
      assert (kind (snd p) = k /\ p = (fst p, Information w k)) as [EK EP].
      { unfold shown in E. inversion E. destruct p as [e [o kk]]. cbn. auto. }
      rewrite EK in D. split; [exact D|]. intros U.
      rewrite EP in I. apply (unused_entry _ _ _ _ _ BL AT K) in I. apply I.
      pose proof (used_reached _ U it k w AT K D) as RR.
      assert (BJ : by_left (Entity (i_name it) (lay (i_sort it))) (entities t) = Some (index p)).
      { apply defined_left; [exact AT|]. rewrite K. cbn. now destruct k. }
      now rewrite <- (bij_inj _ _ _ _ (t_bij l t T) BL BJ) in RR.
    + intros (it & k & w & AT & K & D & NU).
      assert (BJ : by_left (Entity (i_name it) (lay (i_sort it))) (entities t) = Some i).
      { apply defined_left; [exact AT|]. rewrite K. cbn. now destruct k. }
      exists (Entity (i_name it) (lay (i_sort it)), Information w k). split.
      * unfold index. cbn [fst]. now rewrite BJ.
      * apply filter_In. split; [|exact D]. apply (unused_entry _ _ _ _ _ BJ AT K).
        intros R. apply NU. eapply reached_used; eauto. unfold defined_item. now rewrite K.
Qed.

(** ** Everything *)

Variable cs : list call.
Hypothesis W : l = written cs.
Hypothesis TR : forall m n, contains_key (m, n) (type_references t) = true
  <-> exists r w k, In (RegisterTypeReference m n r w k) cs.
Hypothesis VR : forall m n, contains_key (m, n) (value_references t) = true
  <-> exists r w k, In (RegisterValueReference m n r w k) cs.
Hypothesis LT : lists_tell cs.
Hypothesis ONCE : taken_over_once l.

Lemma not_recorded m n : ~ recorded cs m n <->
  contains_key (m, n) (type_references t) = false /\ contains_key (m, n) (value_references t) = false.
Proof.
  rewrite <- !not_true_iff_false, TR, VR. unfold recorded. split.
  - intros N. split; intros (r & w & k & I); apply N; exists r, w, k; auto.
  - intros [A B] (r & w & k & [I|I]); [apply B|apply A]; eauto.
Qed.

Lemma known_left i it k w : item_at l i it -> i_known it = Known k w ->
  exists e, by_left e (entities t) = Some i.
Proof.
  intros AT K. destruct (scope l (i_name it) (i_sort it)) as [j|] eqn:SC.
  - destruct (Nat.eq_dec j i) as [->|N].
    + exists (Entity (i_name it) (lay (i_sort it))). now rewrite (t_scope l t T).
    + assert (OV : overtaken l (i_name it) i).
      { exists it. repeat split; auto; [rewrite K; discriminate|congruence]. }
      pose proof (t_shadow l t T (i_name it)) as X.
      destruct (by_left (Entity (i_name it) LShadowed) (entities t)) as [i'|] eqn:BL.
      * exists (Entity (i_name it) LShadowed). rewrite BL. f_equal. eapply ONCE; [|exact OV].
        destruct X as (x & kx & wx & AX & NX & KX & SX & _). exists x. repeat split; auto.
        rewrite KX. discriminate.
      * destruct X as [_ X]. now elim (X i).
  - assert (OV : overtaken l (i_name it) i).
    { exists it. repeat split; auto; [rewrite K; discriminate|congruence]. }
    pose proof (t_shadow l t T (i_name it)) as X.
    destruct (by_left (Entity (i_name it) LShadowed) (entities t)) as [i'|] eqn:BL.
    * exists (Entity (i_name it) LShadowed). rewrite BL. f_equal. eapply ONCE; [|exact OV].
      destruct X as (x & kx & wx & AX & NX & KX & SX & _). exists x. repeat split; auto.
      rewrite KX. discriminate.
    * destruct X as [_ X]. now elim (X i).
Qed.

Lemma reached_used_all e : reached t e -> forall i, by_left e (entities t) = Some i -> used l i.
Proof.
  induction 1 as [e i0 I BL|e m NP X|e e' R IH K (i0 & j & BL & E & BR)]; intros i H.
  - destruct e as [n ly]. apply (t_public l t T) in I as (s & i1 & x & -> & SC & AX & PX).
    rewrite (t_scope l t T), SC in H. inversion H; subst i1. exact (used_public l _ x AX PX).
  - destruct X as (a & b & BL & NM & E & BR & TF & VF).
    pose proof (tracks_inverse _ _ BR) as H'. rewrite H in H'. inversion H'; subst b.
    apply edge_ref in E. destruct (s_refs l S _ _ E) as (x & y & AX & AY & _ & Q).
    destruct (entity_item e a BL) as (x' & AX' & NX & NB & _ & L).
    pose proof (item_fun _ _ _ AX AX'). subst x'.
    change LModule with (lay SModule) in H. rewrite (t_scope l t T) in H.
    destruct (s_scope l S _ _ _ H) as (y' & AY' & NY & SY & _).
    pose proof (item_fun _ _ _ AY AY'). subst y'.
    assert (SX : i_sort x <> SModule).
    { intros SX. destruct Q as [[D _]|[_ Q]]; [rewrite (module_not_defined a x AX SX) in D; discriminate|].
      destruct Q as [Q|(m' & w' & Q)].
      - unfold imported_item in Q. destruct (i_known x) as [| |k w] eqn:KX; try discriminate.
        pose proof (s_sort l S a x k w AX KX) as O. rewrite SX in O. destruct k; cbn in *; discriminate.
      - destruct L as [(s & -> & SR & _)|(_ & SC & _)].
        + rewrite SX in SR. subst s. now elim NM.
        + apply SC. apply (s_lasting l S a x AX). now rewrite Q. }
    assert (PX : i_public x = false).
    { destruct (i_public x) eqn:PX; [|reflexivity]. elim NP.
      destruct (s_public l S a x AX PX) as (k & w & K & D).
      assert (BX : by_left (Entity (i_name x) (lay (i_sort x))) (entities t) = Some a).
      { apply defined_left; [exact AX|]. rewrite K. cbn. now destruct k. }
      rewrite (bij_inj _ _ _ _ (t_bij l t T) BL BX). apply (t_public l t T).
      exists (i_sort x), a, x. rewrite (t_scope l t T) in BX. auto. }
    assert (NI : imported_item x <> true).
    { assert (NR : ~ recorded cs m (name e)) by (apply not_recorded; auto).
      intros IM. apply NR. rewrite <- NX, <- NY. subst l.
      apply (LT a x i y AX AY E SX PX SY); [rewrite NY; exact H|exact IM]. }
    assert (DX : defined_item x = true).
    { destruct Q as [[D _]|[_ [Q|(m' & w' & Q)]]]; [exact D|congruence|].
      pose proof (s_sort l S a x _ _ AX Q) as O. destruct (i_sort x); cbn in O; congruence. }
    unfold defined_item in DX. destruct (i_known x) as [| |k w] eqn:KX; [discriminate|now elim NB|].
    exact (used_module l a x k w i y AX KX DX E AY SY).
  - pose proof (tracks_inverse _ _ BR) as H'. rewrite H in H'. inversion H'; subst j.
    apply edge_ref in E. eapply used_reference; [|exact E]. now apply IH.
Qed.

Lemma used_reached_all i : used l i -> forall e, by_left e (entities t) = Some i -> reached t e.
Proof.
  induction 1 as [i x AX P|i x k0 w0 j jt AI K0 D0 R AJ SM|i j U IH R]; intros e H.
  - destruct (s_public l S i x AX P) as (k & w & K & D).
    assert (BX : by_left (Entity (i_name x) (lay (i_sort x))) (entities t) = Some i).
    { apply defined_left; [exact AX|]. rewrite K. cbn. now destruct k. }
    rewrite (bij_inj _ _ _ _ (t_bij l t T) H BX).
    eapply reached_public; [|exact BX]. apply (t_public l t T).
    exists (i_sort x), i, x. rewrite (t_scope l t T) in BX. auto.
  - assert (BX : by_left (Entity (i_name x) (lay (i_sort x))) (entities t) = Some i).
    { apply defined_left; [exact AI|]. rewrite K0. cbn. now destruct k0. }
    assert (DX : defined_item x = true) by (unfold defined_item; now rewrite K0).
    assert (SCJ : scope l (i_name jt) SModule = Some j).
    { destruct (s_refs l S _ _ R) as (x' & y & AX' & AY & _ & Q).
      pose proof (item_fun _ _ _ AI AX'). pose proof (item_fun _ _ _ AJ AY). subst x' y.
      destruct Q as [[_ Q]|[_ [Q|(m & w & Q)]]]; [now apply Q| |].
      - unfold imported_item in Q. rewrite K0 in Q. destruct k0; cbn in *; discriminate.
      - rewrite K0 in Q. inversion Q; subst. discriminate. }
    assert (BJ : by_left (Entity (i_name jt) LModule) (entities t) = Some j).
    { change LModule with (lay SModule). now rewrite (t_scope l t T). }
    rewrite (bij_inj _ _ _ _ (t_bij l t T) H BJ).
    destruct (i_public x) eqn:PX.
    + eapply reached_next with (e := Entity (i_name x) (lay (i_sort x))).
      * eapply reached_public; [|exact BX]. apply (t_public l t T).
        exists (i_sort x), i, x. rewrite (t_scope l t T) in BX. auto.
      * eapply known_key; eauto.
      * exists i, j. split; [exact BX|]. split; [now apply edge_ref|now apply right_left].
    + assert (SX : i_sort x <> SModule).
      { intros SX. rewrite (module_not_defined i x AI SX) in DX. discriminate. }
      apply (reached_module t (Entity (i_name x) (lay (i_sort x)))).
      * intros I. apply (t_public l t T) in I as (s & i1 & y & EL & SC & AY & PY).
        apply lay_inj in EL. subst s. rewrite (t_scope l t T), SC in BX. inversion BX; subst i1.
        pose proof (item_fun _ _ _ AI AY). subst y. congruence.
      * exists i, j. split; [exact BX|]. split; [destruct (i_sort x); cbn; congruence|].
        split; [now apply edge_ref|]. split; [now apply right_left|]. cbn [name].
        apply not_recorded. intros RC. subst l.
        apply (LT i x j jt AI AJ R SX PX SM SCJ) in RC.
        unfold imported_item in RC. rewrite K0 in RC. destruct k0; cbn in *; discriminate.
  - destruct (s_refs l S _ _ R) as (x & y & AX & AY & _ & Q).
    destruct (used_not_begun i U) as (x' & AX' & NB). pose proof (item_fun _ _ _ AX AX'). subst x'.
    assert (KX : exists k w, i_known x = Known k w).
    { destruct (i_known x) as [| |k w] eqn:E; [|now elim NB|eauto]. exfalso.
      unfold defined_item, imported_item in Q. rewrite E in Q.
      destruct Q as [[Q _]|[_ [Q|(m & w & Q)]]]; discriminate. }
    destruct KX as (k & w & KX). destruct (known_left i x k w AX KX) as (ei & BI).
    eapply reached_next; [apply IH; exact BI|eapply known_key; eauto|].
    exists i, j. split; [exact BI|]. split; [now apply edge_ref|now apply right_left].
Qed.

Theorem unused_all :
  exists is,
    NoDup is /\ Forall2 (shows l) is (map shown u)
    /\ forall i, In i is <-> exists it k w, item_at l i it /\ i_known it = Known k w /\ ~ used l i.
Proof.
  exists (map index u). split; [|split].
  - apply indexes_distinct; [apply unused_sub|apply unused_nodup].
  - apply entries_show, unused_sub.
  - intros i. rewrite in_map_iff. split.
    + intros [p [<- I]]. destruct (entry_shows p (unused_sub p I)) as (it & k & w & BL & AT & K & E).
      exists it, k, w. split; [exact AT|]. split; [exact K|].
      assert (EP : p = (fst p, Information w k)).
      { unfold shown in E. inversion E. destruct p as [e [o kk]]. cbn. auto. }
      intros U. rewrite EP in I. apply (unused_entry _ _ _ _ _ BL AT K) in I. apply I.
      eapply used_reached_all; eauto.
    + intros (it & k & w & AT & K & NU). destruct (known_left i it k w AT K) as (e & BL).
      exists (e, Information w k). split.
      * unfold index. cbn [fst]. now rewrite BL.
      * apply (unused_entry _ _ _ _ _ BL AT K). intros R. apply NU. eapply reached_used_all; eauto.
Qed.
End Found.
