From Coq Require Import Bool List Arith Lia Permutation Sorted.
From Verif Require Import Text TextProofs Fields FieldsSpec FieldsProofs.
Import ListNotations.

(** ** Declarations *)
Lemma insert_field_in f l i k p :
  In (k, p) (insert_field f l i) <-> (k = l /\ p = i) \/ (k <> l /\ In (k, p) f).
Proof.
  unfold insert_field. simpl. rewrite filter_In. simpl. rewrite negb_true_iff, text_eqb_neq.
  split; [intros [[= <- <-]|[H N]]; auto|]. intros [[-> ->]|[N H]]; auto.
Qed.
Lemma insert_field_nodup f l i : NoDup (map fst f) -> NoDup (map fst (insert_field f l i)).
Proof.
  intros ND. unfold insert_field. simpl. constructor.
  - rewrite in_map_iff. intros ([k p] & E & H). simpl in E. subst. apply filter_In in H as [_ H]. simpl in H.
    rewrite text_eqb_refl in H. discriminate.
  - induction f as [|[k p] f IH]; [constructor|]. simpl in *. inversion ND as [|? ? NI ND']; subst.
    destruct (negb (text_eqb k l)); simpl; auto. constructor; auto. intros H. apply NI.
    apply in_map_iff in H as ([k' p'] & E & H). simpl in E. subst. apply filter_In in H as [H _].
    now apply (in_map fst) in H.
Qed.
Lemma insert_field_keys f l i k : In k (map fst (insert_field f l i)) <-> k = l \/ In k (map fst f).
Proof.
  rewrite !in_map_iff. split.
  - intros ([k' p] & <- & H). apply insert_field_in in H as [[-> _]|[_ H]]; auto. right. now exists (k', p).
  - intros H. destruct (text_eqb k l) eqn:E.
    + apply text_eqb_eq in E as ->. exists (l, i). split; auto. apply insert_field_in. auto.
    + apply text_eqb_neq in E. destruct H as [|([k' p] & <- & H)]; [congruence|]. exists (k', p). split; auto.
      apply insert_field_in. auto.
Qed.

(** What the builder knows after [earlier] parameters. *)
Definition knows (b : builder) (earlier : list (option text)) : Prop :=
  NoDup (map fst (fields (map_so_far b)))
  /\ (forall l, In l (map fst (fields (map_so_far b))) <-> In (Some l) earlier)
  /\ (any_labels b = true <-> exists l, In (Some l) earlier).

Lemma add_all_errors params : forall b earlier, knows b earlier ->
  declaration_errors earlier params (snd (add_all b params)).
Proof.
  induction params as [|[l loc] params IH]; intros b earlier (ND & K & Any); cbn [add_all]; [constructor|].
  unfold add. destruct l as [l|].
  - destruct (get (fields (map_so_far b)) l) as [p|] eqn:G.
    + assert (Hl : In (Some l) earlier).
      { apply K. apply get_in in G; auto. now apply (in_map fst) in G. }
      set (b' := Builder _ _ _).
      specialize (IH b' (earlier ++ [Some l])). destruct (add_all b' params) as [b2 es].
      apply DE_duplicate; auto. apply IH. subst b'. split; [|split]; simpl map_so_far; simpl fields.
      * now apply insert_field_nodup.
      * intros k. rewrite insert_field_keys, K, in_app_iff. simpl. intuition congruence.
      * simpl. rewrite Any. split; [intros [k Hk]; exists k; apply in_app_iff; auto|]. intros _. now exists l.
    + assert (Hl : ~ In (Some l) earlier) by (rewrite <- K; now apply get_none).
      set (b' := Builder _ _ _).
      specialize (IH b' (earlier ++ [Some l])). destruct (add_all b' params) as [b2 es].
      apply DE_labelled; auto. apply IH. subst b'. split; [|split]; simpl map_so_far; simpl fields.
      * now apply insert_field_nodup.
      * intros k. rewrite insert_field_keys, K, in_app_iff. simpl. intuition congruence.
      * simpl. split; auto. intros _. exists l. apply in_app_iff. right. now left.
  - destruct (any_labels b) eqn:A.
    + specialize (IH b (earlier ++ [None])). destruct (add_all b params) as [b2 es].
      apply DE_unlabelled_after; [now apply Any|]. apply IH. split; [|split]; auto.
      * intros k. rewrite K, in_app_iff. simpl. intuition discriminate.
      * rewrite A. split; auto. intros _. destruct (proj1 Any eq_refl) as [k Hk]. exists k. apply in_app_iff. auto.
    + set (b' := Builder _ _ _).
      specialize (IH b' (earlier ++ [None])). destruct (add_all b' params) as [b2 es].
      assert (NA : ~ exists l, In (Some l) earlier) by (rewrite <- Any; discriminate).
      apply DE_unlabelled; auto. apply IH. subst b'. split; [|split]; simpl map_so_far; simpl fields; auto.
      * intros k. rewrite K, in_app_iff. simpl. intuition discriminate.
      * simpl. split; [discriminate|]. intros [k Hk]. apply in_app_iff in Hk as [Hk|[Hk|[]]]; [|discriminate].
        destruct NA. eauto.
Qed.

Lemma field_map_of_errors params : declaration_errors [] params (snd (field_map_of params)).
Proof.
  unfold field_map_of. pose proof (add_all_errors params (new_builder (length params)) []) as H.
  destruct (add_all (new_builder (length params)) params) as [b es]. apply H.
  split; [constructor|]. simpl. split; [tauto|]. split; [discriminate|]. intros [l []].
Qed.

(** The errors are empty exactly for legal parameters. *)
Lemma labels_of_in params l : In l (labels_of params) <-> In (Some l) params.
Proof.
  unfold labels_of. rewrite in_flat_map. split.
  - intros ([x|] & H & E); simpl in E; [|tauto]. destruct E as [<-|[]]. auto.
  - intros H. exists (Some l). simpl. auto.
Qed.
Lemma labels_of_app a b : labels_of (a ++ b) = labels_of a ++ labels_of b. Proof. apply flat_map_app. Qed.
Lemma labels_of_some ls : labels_of (map Some ls) = ls.
Proof. induction ls; simpl; congruence. Qed.
Lemma labels_of_none n : labels_of (repeat None n) = [].
Proof. induction n; simpl; auto. Qed.

Lemma labels_last_iff ps : labels_last ps <->
  forall a b, ps = a ++ None :: b -> ~ exists l, In (Some l) a.
Proof.
  split.
  - intros (n & ls & ->) a b E (l & Hl).
    revert a E Hl. induction n as [|n IH]; intros a E Hl; simpl in E.
    + assert (In None (map Some ls)) by (rewrite E; apply in_app_iff; right; now left).
      apply in_map_iff in H as (x & ? & _). discriminate.
    + destruct a as [|y a]; [destruct Hl|]. injection E as <- E. destruct Hl as [|Hl]; [discriminate|]. eapply IH; eauto.
  - induction ps as [|[l|] ps IH]; intros H.
    + now exists 0, [].
    + assert (G : ~ In None ps).
      { intros Hn. apply in_split in Hn as (a & b & ->). apply (H (Some l :: a) b eq_refl). exists l. now left. }
      assert (exists ls, ps = map Some ls) as (ls & ->).
      { clear - G. induction ps as [|[k|] ps IH]; [now exists []| |destruct G; now left].
        destruct IH as (ls & ->); [intros X; apply G; now right|]. now exists (k :: ls). }
      now exists 0, (l :: ls).
    + destruct IH as (n & ls & ->).
      { intros a b -> (l & Hl). apply (H (None :: a) b eq_refl). exists l. now right. }
      now exists (S n), ls.
Qed.

Lemma NoDup_mid {B} (a : list B) x b : NoDup (a ++ x :: b) -> ~ In x a.
Proof. intros H. apply NoDup_remove_2 in H. intros Hx. apply H, in_app_iff. auto. Qed.

Lemma declaration_errors_legal params : forall earlier es, legal_parameters earlier ->
  declaration_errors earlier params es ->
  (es = [] <-> legal_parameters (earlier ++ map fst params)).
Proof.
  induction params as [|[l loc] params IH]; intros earlier es Le DE.
  - inversion DE; subst. simpl. rewrite app_nil_r. tauto.
  - assert (Bad1 : forall l', l = Some l' -> In (Some l') earlier -> ~ legal_parameters (earlier ++ l :: map fst params)).
    { intros l' -> Hl [_ ND]. rewrite labels_of_app in ND. simpl in ND. apply NoDup_mid in ND.
      apply ND, labels_of_in; auto. }
    assert (Bad2 : l = None -> (exists k, In (Some k) earlier) -> ~ legal_parameters (earlier ++ l :: map fst params)).
    { intros -> H [L _]. apply labels_last_iff with (a := earlier) (b := map fst params) in L; auto. }
    assert (Good : legal_parameters (earlier ++ [l]) -> declaration_errors (earlier ++ [l]) params es ->
      (es = [] <-> legal_parameters (earlier ++ map fst ((l, loc) :: params)))).
    { intros H1 H2. rewrite (IH _ _ H1 H2), <- app_assoc. reflexivity. }
    inversion DE as [|? l0 ? ? ? H1 H2|? l0 ? ? ? H1 H2|? ? ? ? H1 H2|? ? ? ? H1 H2]; subst; simpl map.
    + split; [discriminate|]. intros H. destruct (Bad1 l0 eq_refl H1 H).
    + apply Good; auto. destruct Le as [L ND]. split.
      * destruct L as (n & ls & ->). exists n, (ls ++ [l0]). now rewrite map_app, app_assoc.
      * rewrite labels_of_app. simpl. apply NoDup_rev in ND. rewrite <- (rev_involutive (labels_of earlier ++ [l0])).
        apply NoDup_rev. rewrite rev_app_distr. simpl. constructor; auto. rewrite <- in_rev, labels_of_in. auto.
    + split; [discriminate|]. intros H. destruct (Bad2 eq_refl H1 H).
    + apply Good; auto. destruct Le as [L ND]. split.
      * destruct L as (n & ls & ->). destruct ls as [|k ls].
        -- exists (S n), []. cbn [map]. rewrite !app_nil_r. symmetry. exact (repeat_cons n None).
        -- destruct H1. exists k. apply in_app_iff. right. now left.
      * rewrite labels_of_app. simpl. now rewrite app_nil_r.
Qed.

Lemma field_map_of_legal params : snd (field_map_of params) = [] <-> legal_parameters (map fst params).
Proof.
  pose proof (declaration_errors_legal params [] _ (conj (ex_intro _ 0 (ex_intro _ [] eq_refl)) (NoDup_nil _))
    (field_map_of_errors params)) as H. exact H.
Qed.

(** The map of a legal declaration. *)
Lemma add_all_map params : forall b earlier, knows b earlier -> index b = length earlier ->
  (forall l p, In (l, p) (fields (map_so_far b)) <-> nth_error earlier p = Some (Some l)) ->
  snd (add_all b params) = [] ->
  let b' := fst (add_all b params) in
  arity (map_so_far b') = arity (map_so_far b) /\ NoDup (map fst (fields (map_so_far b')))
  /\ forall l p, In (l, p) (fields (map_so_far b')) <-> nth_error (earlier ++ map fst params) p = Some (Some l).
Proof.
  induction params as [|[l loc] params IH]; intros b earlier (ND & K & Any) I F E; cbn [add_all] in *.
  { simpl. rewrite app_nil_r. auto. }
  unfold add in *. destruct l as [l|].
  - destruct (get (fields (map_so_far b)) l) as [p|] eqn:G.
    { destruct (add_all _ params) in E. discriminate E. }
    assert (Hl : ~ In (Some l) earlier) by (rewrite <- K; now apply get_none).
    set (b' := Builder _ _ _) in *. specialize (IH b' (earlier ++ [Some l])).
    destruct (add_all b' params) as [b2 es]. simpl in E. subst es. simpl snd in IH. simpl fst in *.
    rewrite <- app_assoc in IH. cbn [app] in IH. change (map fst ((Some l, loc) :: params)) with (Some l :: map fst params).
    apply IH; auto; subst b'; simpl map_so_far; simpl fields.
    + split; [|split]; simpl map_so_far; simpl fields.
      * now apply insert_field_nodup.
      * intros k. rewrite insert_field_keys, K, in_app_iff. simpl. intuition congruence.
      * simpl. split; auto. intros _. exists l. apply in_app_iff. right. now left.
    + simpl. rewrite app_length, I. simpl. lia.
    + intros k p. rewrite insert_field_in, F, I. split.
      * intros [[-> ->]|[N H]]; [apply nth_error_mid|]. rewrite nth_error_app1; auto. apply nth_error_Some. congruence.
      * intros H. destruct (lt_dec p (length earlier)) as [L|L].
        -- rewrite nth_error_app1 in H by auto. right. split; auto. intros ->. apply Hl. eapply nth_error_In; eauto.
        -- rewrite nth_error_app2 in H by lia. destruct (p - length earlier) as [|d] eqn:D.
           ++ simpl in H. injection H as <-. left. split; auto. lia.
           ++ destruct d; discriminate.
  - destruct (any_labels b) eqn:A.
    { destruct (add_all _ params) in E. discriminate E. }
    assert (NA : ~ exists l, In (Some l) earlier) by (rewrite <- Any; discriminate).
    set (b' := Builder _ _ _) in *. specialize (IH b' (earlier ++ [None])).
    destruct (add_all b' params) as [b2 es]. simpl in E. subst es. simpl snd in IH. simpl fst in *.
    rewrite <- app_assoc in IH. cbn [app] in IH. change (map fst ((None, loc) :: params)) with (None :: map fst params).
    apply IH; auto; subst b'; simpl map_so_far; simpl fields.
    + split; [|split]; simpl map_so_far; simpl fields; auto.
      * intros k. rewrite K, in_app_iff. simpl. intuition discriminate.
      * simpl. split; [discriminate|]. intros [k Hk]. apply in_app_iff in Hk as [Hk|[Hk|[]]]; [|discriminate].
        destruct NA. eauto.
    + simpl. rewrite app_length, I. simpl. lia.
    + intros k p. rewrite F. split.
      * intros H. rewrite nth_error_app1; auto. apply nth_error_Some. congruence.
      * intros H. destruct (lt_dec p (length earlier)) as [L|L].
        -- now rewrite nth_error_app1 in H by auto.
        -- rewrite nth_error_app2 in H by lia. destruct (p - length earlier) as [|[|d]]; discriminate.
Qed.

Lemma describes_consistent fm params : NoDup (map fst (fields fm)) -> describes fm params -> consistent fm.
Proof.
  intros ND (Ar & D). split; auto. split.
  - assert (forall l l' p, In (l, p) (fields fm) -> In (l', p) (fields fm) -> l = l').
    { intros l l' p H1 H2. apply D in H1, H2. congruence. }
    clear D. revert ND H. generalize (fields fm). induction l as [|[k q] f IH]; intros ND H; simpl; [constructor|].
    inversion ND as [|? ? NI ND']; subst. constructor.
    + intros Hq. apply in_map_iff in Hq as ([k' q'] & E & Hk). simpl in E. subst. apply NI.
      rewrite (H k k' q); [now apply (in_map fst) in Hk|now left|now right].
    + apply IH; auto. intros l l' p H1 H2. eapply H; right; eauto.
  - intros l p H. apply D in H. rewrite Ar. apply nth_error_Some. congruence.
Qed.

Lemma field_map_of_map params : legal_parameters (map fst params) ->
  match fst (field_map_of params) with
  | Some fm => describes fm (map fst params) /\ consistent fm /\ labels_of (map fst params) <> []
  | None => labels_of (map fst params) = []
  end.
Proof.
  intros L. apply field_map_of_legal in L. unfold field_map_of in *.
  pose proof (add_all_map params (new_builder (length params)) []) as H.
  destruct (add_all (new_builder (length params)) params) as [b es]. simpl in L. subst es. simpl in H.
  destruct H as (A & ND & F); auto.
  { split; [constructor|]. simpl. split; [tauto|]. split; [discriminate|]. intros [l []]. }
  { intros l p. split; [tauto|]. destruct p; discriminate. }
  simpl. unfold finish. destruct (fields (map_so_far b)) as [|[l p] f] eqn:E.
  - destruct (labels_of (map fst params)) as [|l ls] eqn:Q; auto.
    assert (In l (labels_of (map fst params))) by (rewrite Q; now left).
    apply labels_of_in, In_nth_error in H as [p H]. apply F in H. destruct H.
  - rewrite <- E in *. assert (D : describes (map_so_far b) (map fst params)).
    { split; auto. now rewrite map_length. }
    split; auto. split; [eapply describes_consistent; eauto|].
    assert (H : In (l, p) (fields (map_so_far b))) by (rewrite E; now left).
    apply F, nth_error_In, labels_of_in in H. intros Q. rewrite Q in H. destruct H.
Qed.

(** ** Missing labels *)
Definition before_ (a b : text * nat) : Prop := snd a < snd b.
Lemma sorted_unique : forall l1 l2 : list (text * nat), StronglySorted before_ l1 -> StronglySorted before_ l2 ->
  (forall x, In x l1 <-> In x l2) -> l1 = l2.
Proof.
  induction l1 as [|a l1 IH]; intros [|b l2] S1 S2 E; auto.
  - destruct (proj2 (E b)). now left.
  - destruct (proj1 (E a)). now left.
  - inversion S1 as [|? ? S1' F1]; subst. inversion S2 as [|? ? S2' F2]; subst.
    rewrite Forall_forall in F1, F2.
    assert (a = b).
    { destruct (proj1 (E a) (or_introl eq_refl)) as [|Ha]; auto.
      destruct (proj2 (E b) (or_introl eq_refl)) as [|Hb]; auto.
      apply F2 in Ha. apply F1 in Hb. unfold before_ in *. lia. }
    subst. f_equal. apply IH; auto. intros x. split; intros Hx.
    + destruct (proj1 (E x) (or_intror Hx)) as [<-|]; auto. apply F1 in Hx. unfold before_ in Hx. lia.
    + destruct (proj2 (E x) (or_intror Hx)) as [<-|]; auto. apply F2 in Hx. unfold before_ in Hx. lia.
Qed.
Lemma insert_sorted_in f l x : In x (insert_sorted f l) <-> x = f \/ In x l.
Proof.
  induction l as [|g l IH]; simpl; [intuition|]. destruct (snd f <=? snd g); simpl; [intuition|]. rewrite IH. intuition.
Qed.
Lemma sorted_by_position_in l x : In x (sorted_by_position l) <-> In x l.
Proof. induction l as [|f l IH]; simpl; [tauto|]. rewrite insert_sorted_in, IH. intuition. Qed.
Lemma insert_sorted_sorted f l : StronglySorted before_ l -> ~ In (snd f) (map snd l) ->
  StronglySorted before_ (insert_sorted f l).
Proof.
  induction l as [|g l IH]; intros S N; simpl.
  - constructor; constructor.
  - inversion S as [|? ? S' F]; subst. destruct (Nat.leb_spec (snd f) (snd g)).
    + constructor; auto. assert (snd f < snd g) by (simpl in N; lia).
      constructor; auto. rewrite Forall_forall in *. intros x Hx. apply F in Hx. unfold before_ in *. lia.
    + constructor; [apply IH; auto; simpl in N; tauto|]. rewrite Forall_forall in *. intros x Hx.
      apply insert_sorted_in in Hx as [->|Hx]; auto. 
Qed.
Lemma sorted_by_position_sorted l : NoDup (map snd l) -> StronglySorted before_ (sorted_by_position l).
Proof.
  induction l as [|f l IH]; intros ND; simpl; [constructor|]. simpl in ND. inversion ND as [|? ? NI ND']; subst.
  apply insert_sorted_sorted; auto. intros H. apply NI. apply in_map_iff in H as (x & H0 & H).
  rewrite sorted_by_position_in in H. rewrite <- H0. now apply (in_map snd).
Qed.

Lemma combine_seq_in (ls : list text) : forall n l p, In (l, p) (combine ls (seq n (length ls))) <->
  n <= p /\ nth_error ls (p - n) = Some l.
Proof.
  induction ls as [|k ls IH]; intros n l p; simpl.
  - split; [tauto|]. intros [_ H]. destruct (p - n); discriminate.
  - rewrite IH. split.
    + intros [[= <- <-]|[H1 H2]]; [split; auto; now rewrite Nat.sub_diag|]. split; [lia|].
      replace (p - n) with (S (p - S n)) by lia. exact H2.
    + intros [H1 H2]. destruct (Nat.eq_dec n p) as [->|N].
      * rewrite Nat.sub_diag in H2. simpl in H2. left. congruence.
      * right. split; [lia|]. replace (p - n) with (S (p - S n)) in H2 by lia. exact H2.
Qed.
Lemma combine_seq_sorted (ls : list text) : forall n, StronglySorted before_ (combine ls (seq n (length ls))).
Proof.
  induction ls as [|k ls IH]; intros n; simpl; constructor; auto.
  apply Forall_forall. intros [l p] H. apply combine_seq_in in H as [H _]. unfold before_. simpl. lia.
Qed.
Lemma filter_sorted q l : StronglySorted before_ l -> StronglySorted before_ (filter q l).
Proof.
  induction 1 as [|a l S IH F]; simpl; [constructor|]. destruct (q a); auto. constructor; auto.
  rewrite Forall_forall in *. intros x Hx. apply filter_In in Hx as [Hx _]. auto.
Qed.
Lemma filter_combine_fst (q : text -> bool) (ls : list text) : forall n,
  map fst (filter (fun f => q (fst f)) (combine ls (seq n (length ls)))) = filter q ls.
Proof.
  induction ls as [|k ls IH]; intros n; simpl; auto. destruct (q k); simpl; now rewrite IH.
Qed.
Lemma min_list_spec l : match min_list l with
  | Some m => In m l /\ forall x, In x l -> m <= x
  | None => l = [] end.
Proof.
  destruct l as [|x l]; simpl; auto. 
  assert (G : In (fold_right Nat.min x l) (x :: l) /\ forall y, In y (x :: l) -> fold_right Nat.min x l <= y).
  { induction l as [|z l [IH1 IH2]]; simpl.
    - split; auto. intros y [<-|[]]; auto.
    - split.
      + destruct (Nat.min_spec z (fold_right Nat.min x l)) as [[_ ->]|[_ ->]]; auto.
        destruct IH1 as [<-|H]; auto.
      + intros y [<-|[<-|H]].
        * specialize (IH2 x (or_introl eq_refl)). lia.
        * lia.
        * specialize (IH2 y (or_intror H)). lia. }
  exact G.
Qed.

Lemma NoDup_map_filter {B C} (f : B -> C) q l : NoDup (map f l) -> NoDup (map f (filter q l)).
Proof.
  induction l as [|a l IH]; simpl; auto. intros H. inversion H as [|? ? NI ND]; subst.
  destruct (q a); simpl; auto. constructor; auto. intros X. apply NI. apply in_map_iff in X as (b & <- & X).
  apply filter_In in X as [X _]. now apply in_map.
Qed.

Lemma explicit_labels_in {A} (args : list (call_arg A)) l :
  In l (explicit_labels args) <-> exists a, In a args /\ label a = Some l.
Proof.
  induction args as [|a args IH]; simpl; [split; [tauto|intros (x & [] & _)]|].
  destruct (label a) as [k|] eqn:L; simpl; rewrite IH; split.
  - intros [->|(x & Hx & E)]; eauto.
  - intros (x & [<-|Hx] & E); [left; congruence|eauto].
  - intros (x & Hx & E); eauto.
  - intros (x & [<-|Hx] & E); [congruence|eauto].
Qed.

Section Missing.
Context {A : Type} (fm : field_map) (C : consistent fm) (unlabelled : nat) (labels : list text).
Context (D : describes fm (repeat None unlabelled ++ map Some labels)).
Context (NL : NoDup labels).
Implicit Types args : list (call_arg A).

Lemma fields_in l p : In (l, p) (fields fm) <-> unlabelled <= p /\ nth_error labels (p - unlabelled) = Some l.
Proof.
  destruct D as [_ D']. rewrite D'. destruct (lt_dec p unlabelled) as [L|L].
  - rewrite nth_error_app1 by (rewrite repeat_length; auto). split; [|lia].
    intros H. apply nth_error_In, repeat_spec in H. discriminate.
  - rewrite nth_error_app2 by (rewrite repeat_length; lia). rewrite repeat_length, nth_error_map.
    destruct (nth_error labels (p - unlabelled)); simpl; split; intros H; try discriminate; try (now destruct H);
      [split; [lia|congruence]|destruct H; congruence].
Qed.

Lemma missing_labels_spec args : missing_labels fm args
  = skipn (length (filter (fun a => negb (is_labelled a) && negb (is_use_implicit_callback a)) args) - unlabelled)
      (filter (fun l => negb (contains (explicit_labels args) l)) labels).
Proof using C D. clear NL.
  unfold missing_labels. pose proof (min_list_spec (map snd (fields fm))) as M.
  destruct (min_list (map snd (fields fm))) as [m|].
  - assert (m = unlabelled).
    { destruct M as [M1 M2]. apply in_map_iff in M1 as ([l p] & E & H). simpl in E. subst p. apply fields_in in H as [H1 H2].
      assert (exists l0, nth_error labels 0 = Some l0) as [l0 H0].
      { destruct labels; [destruct (m - unlabelled); discriminate|]. simpl. eauto. }
      assert (In (l0, unlabelled) (fields fm)) by (apply fields_in; rewrite Nat.sub_diag; auto).
      apply (in_map snd) in H. simpl in H. apply M2 in H. lia. }
    subst m.
    replace (sorted_by_position (filter (fun f => negb (contains (explicit_labels args) (fst f))) (fields fm)))
      with (filter (fun f => negb (contains (explicit_labels args) (fst f))) (combine labels (seq unlabelled (length labels)))).
    + set (k := _ - unlabelled). clearbody k. rewrite <- (filter_combine_fst _ labels unlabelled).
      set (q := filter _ (combine _ _)). clearbody q. revert q. induction k as [|k IH]; intros q; auto.
      destruct q as [|y q]; simpl; auto.
    + apply sorted_unique.
      * apply filter_sorted, combine_seq_sorted.
      * apply sorted_by_position_sorted, NoDup_map_filter, C.
      * intros [l p]. rewrite sorted_by_position_in, !filter_In, combine_seq_in, fields_in. tauto.
  - apply map_eq_nil in M. assert (labels = []).
    { destruct (nth_error labels 0) as [l|] eqn:Q.
      - assert (In (l, unlabelled) (fields fm)) by (apply fields_in; rewrite Nat.sub_diag; auto).
        rewrite M in H. destruct H.
      - apply nth_error_None in Q. destruct labels; [reflexivity|simpl in Q; lia]. }
    rewrite H. simpl. now rewrite skipn_nil.
Qed.

Lemma fields_known l : known fm l <-> In l labels.
Proof.
  unfold known. split.
  - intros H. apply in_map_iff in H as ([k p] & <- & H). apply fields_in in H as [_ H]. eapply nth_error_In; eauto.
  - intros H. apply In_nth_error in H as [n H]. apply in_map_iff. exists (l, unlabelled + n). split; auto.
    apply fields_in. split; [lia|]. now replace (unlabelled + n - unlabelled) with n by lia.
Qed.

Lemma filter_length_split {B} (q : B -> bool) l :
  length (filter q l) + length (filter (fun x => negb (q x)) l) = length l.
Proof. induction l as [|x l IH]; simpl; auto. destruct (q x); simpl; lia. Qed.

Lemma explicit_labels_nodup args : (forall l, ~ repeated args l) -> NoDup (explicit_labels args).
Proof.
  induction args as [|a args IH]; intros NR; simpl; [constructor|].
  assert (NR' : forall l, ~ repeated args l).
  { intros l (x & y & z & u & v & -> & H1 & H2). apply (NR l). now exists (a :: x), y, z, u, v. }
  destruct (label a) as [k|] eqn:L; auto. constructor; auto.
  intros H. apply explicit_labels_in in H as (b & Hb & Lb). apply in_split in Hb as (y & z & ->).
  apply (NR k). now exists [], y, z, a, b.
Qed.
Lemma explicit_labels_length args : length (explicit_labels args) = length (filter is_labelled args).
Proof.
  induction args as [|a args IH]; simpl; auto. unfold is_labelled at 1. destruct (label a); simpl; lia.
Qed.

(** Adding the missing labels completes the call. *)
Theorem missing_labels_complete args (new : list (call_arg A)) :
  (forall a, In a args -> is_use_implicit_callback a = false) ->
  (forall a, ~ misplaced args a) ->
  (forall a l, In a args -> label a = Some l -> known fm l) ->
  (forall l, ~ repeated args l) ->
  unlabelled <= length (filter (fun a => negb (is_labelled a)) args) ->
  length args <= arity fm ->
  map label new = map Some (missing_labels fm args) ->
  acceptable fm (args ++ new).
Proof.
  intros NU NM K NR Enough Room New.
  pose proof (missing_labels_spec args) as M.
  replace (filter (fun a => negb (is_labelled a) && negb (is_use_implicit_callback a)) args)
    with (filter (fun a => negb (is_labelled a)) args) in M.
  2:{ clear - NU. induction args as [|a args IH]; simpl; auto. rewrite NU by now left. rewrite andb_true_r.
      rewrite IH; auto. intros; apply NU; now right. }
  set (free := filter (fun l => negb (contains (explicit_labels args) l)) labels) in *.
  assert (Lf : length free + length (explicit_labels args) = length labels).
  { assert (P : Permutation (filter (contains (explicit_labels args)) labels) (explicit_labels args)).
    { apply NoDup_Permutation.
      - now apply NoDup_filter.
      - now apply explicit_labels_nodup.
      - intros l. rewrite filter_In, contains_in. split; [tauto|]. intros H. split; auto.
        apply explicit_labels_in in H as (a & Ha & La). apply fields_known. eauto. }
    apply Permutation_length in P. rewrite <- P.
    pose proof (filter_length_split (contains (explicit_labels args)) labels) as S. unfold free. lia. }
  assert (Ar : arity fm = unlabelled + length labels).
  { destruct D as [-> _]. now rewrite app_length, repeat_length, map_length. }
  pose proof (explicit_labels_length args) as El. pose proof (filter_length_split is_labelled args) as Sp.
  assert (Ln : length new = length (missing_labels fm args)).
  { rewrite <- (map_length label new), New. now rewrite map_length. }
  assert (Newl : forall a, In a new -> exists l, label a = Some l /\ In l (missing_labels fm args)).
  { intros a Ha. apply (in_map label) in Ha. rewrite New in Ha. apply in_map_iff in Ha as (l & <- & Hl). eauto. }
  assert (Free : forall l, In l (missing_labels fm args) -> In l labels /\ ~ In l (explicit_labels args)).
  { intros l Hl. rewrite M in Hl. assert (In l free).
    { rewrite <- (firstn_skipn (length (filter (fun a => negb (is_labelled a)) args) - unlabelled) free).
      apply in_app_iff. auto. }
    unfold free in H. apply filter_In in H as [H1 H2]. rewrite negb_true_iff, contains_not in H2. auto. }
  assert (NDm : NoDup (missing_labels fm args)).
  { rewrite M. assert (NoDup free) by now apply NoDup_filter.
    rewrite <- (firstn_skipn (length (filter (fun a => negb (is_labelled a)) args) - unlabelled) free) in H.
    clear - H. induction (firstn _ free); auto. simpl in H. inversion H; auto. }
  split; [|split; [|split]].
  - rewrite app_length, Ln, M, skipn_length. lia.
  - intros a (b & c & E & La & Ia & x & Hx & Lx).
    (* the argument is not a new one *)
    assert (exists c', args = b ++ a :: c') as [c' ->].
    { assert (Ha : forall y, In y new -> y <> a).
      { intros y Hy ->. destruct (Newl a Hy) as (l & ? & _). congruence. }
      clear - E Ha. revert b E. induction args as [|y args IH]; intros b E.
      - simpl in E. exfalso. apply (Ha a); auto. rewrite E. apply in_app_iff. right. now left.
      - destruct b as [|z b]; simpl in E; injection E as -> E.
        + now exists args.
        + destruct (IH b E) as [c' ->]. now exists c'. }
    apply (NM a). exists b, c'. repeat split; auto. eauto.
  - intros a l Ha Hl. apply in_app_iff in Ha as [Ha|Ha]; [eauto|].
    destruct (Newl a Ha) as (l' & E & H). assert (l' = l) by congruence. subst. apply fields_known. now apply Free.
  - intros l R. assert (ND : NoDup (explicit_labels (args ++ new))).
    { assert (E : explicit_labels (args ++ new) = explicit_labels args ++ missing_labels fm args).
      { assert (explicit_labels new = missing_labels fm args).
        { clear - New. revert New. generalize (missing_labels fm args). induction new as [|a new IH]; intros [|m ms] E; try discriminate; auto.
          simpl in E. injection E as E1 E2. simpl. rewrite E1. f_equal. auto. }
        rewrite <- H. clear. induction args as [|a args IH]; simpl; auto. destruct (label a); simpl; congruence. }
      rewrite E. clear E. pose proof (explicit_labels_nodup args NR) as N1.
      assert (Dis : forall l, In l (explicit_labels args) -> ~ In l (missing_labels fm args)) by (intros k H1 H2; now apply Free in H2).
      clear - N1 NDm Dis. revert N1 Dis. generalize (explicit_labels args) as xs. induction xs as [|x xs IH]; intros N1 Dis; auto.
      simpl. inversion N1; subst. constructor.
      - intros H. apply in_app_iff in H as [H|H]; auto. apply (Dis x); auto. now left.
      - apply IH; auto. intros y Hy. apply Dis. now right. }
    destruct R as (x & y & z & u & v & E & Lu & Lv). rewrite E in ND.
    assert (App : forall p q, explicit_labels (A:=A) (p ++ q) = explicit_labels p ++ explicit_labels q).
    { clear. induction p as [|a p IH]; intros q; simpl; auto. destruct (label a); simpl; now rewrite IH. }
    rewrite App in ND. simpl in ND. rewrite Lu in ND. apply NoDup_remove_2 in ND. apply ND, in_app_iff. right.
    apply explicit_labels_in. exists v. split; auto. apply in_app_iff. right. now left.
Qed.
End Missing.
