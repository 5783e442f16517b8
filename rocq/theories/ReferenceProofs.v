(** The tracker keeps what the ledger writes down. *)
From Coq Require Import NArith List Bool Arith Lia Permutation.
From Verif Require Import Text TextProofs Reference ReferenceSpec ReferenceMarkProofs.
Import ListNotations.
Local Open Scope nat_scope.
Local Open Scope list_scope.

Definition lay (s : sort) : layer :=
  match s with SType => LType | SValue => LValue | SModule => LModule end.
Lemma lay_inj a b : lay a = lay b -> a = b. Proof. destruct a, b; cbn; congruence. Qed.
Lemma sort_eqb_eq a b : sort_eqb a b = true <-> a = b. Proof. destruct a, b; cbn; split; congruence. Qed.

(** ** Bijections *)

Definition bij (b : bimap) : Prop := NoDup (map fst b) /\ NoDup (map snd b).
Lemma by_left_in b e i : bij b -> (by_left e b = Some i <-> In (e, i) b).
Proof.
  intros [N _]. split.
  - apply get_some_in, entity_eqb_eq.
  - intros H. now apply (get_in entity_eqb entity_eqb_eq).
Qed.
Lemma by_right_in b e i : bij b -> (by_right i b = Some e <-> In (e, i) b).
Proof.
  intros [_ N]. induction b as [|[x n] b IH]; cbn; [split; [discriminate|tauto]|].
  cbn in N. inversion N; subst. destruct (Nat.eqb_spec i n) as [->|D].
  - split; [intros H; inversion H; now left|]. intros [H|H]; [inversion H; reflexivity|].
    exfalso. apply H1. apply in_map_iff. now exists (e, n).
  - rewrite IH by assumption. split; [tauto|]. intros [H|H]; [inversion H; congruence|exact H].
Qed.
Lemma in_without_right n p b : In p (without_right n b) <-> In p b /\ snd p <> n.
Proof.
  unfold without_right. rewrite filter_In, negb_true_iff, Nat.eqb_neq. intuition congruence.
Qed.
Lemma nodup_filter_map {A B} (f : A -> B) (g : A -> bool) l : NoDup (map f l) -> NoDup (map f (filter g l)).
Proof.
  induction l as [|x l IH]; cbn; intros H; [constructor|]. inversion H; subst.
  destruct (g x); cbn; [|auto]. constructor; [|auto]. intros I. apply H2.
  apply in_map_iff in I as [y [E I]]. apply filter_In in I as [I _]. apply in_map_iff. now exists y.
Qed.
Lemma insert_bij e n b : bij b -> bij (snd (bimap_insert e n b)).
Proof.
  intros [N1 N2]. unfold bimap_insert. cbn [snd]. split; cbn; constructor.
  - intros I. apply in_map_iff in I as [p [E I]]. apply in_without_right in I as [I _].
    apply (in_without entity_eqb entity_eqb_eq) in I as [_ I]. auto.
  - now apply nodup_filter_map, nodup_filter_map.
  - intros I. apply in_map_iff in I as [p [E I]]. apply in_without_right in I as [_ I]. auto.
  - now apply nodup_filter_map, nodup_filter_map.
Qed.
Definition fresh (n : nat) (b : bimap) : Prop := forall e, by_left e b <> Some n.
Lemma option_ext {A} (x y : option A) : (forall a, x = Some a <-> y = Some a) -> x = y.
Proof.
  intros H. destruct x as [a|]; [symmetry; now apply H|].
  destruct y as [a|]; [now apply H|reflexivity].
Qed.
Lemma insert_left e n b e' : bij b -> fresh n b ->
  by_left e' (snd (bimap_insert e n b)) = if entity_eqb e e' then Some n else by_left e' b.
Proof.
  intros B F. apply option_ext. intros a.
  rewrite by_left_in by now apply insert_bij.
  unfold bimap_insert. cbn [snd In]. rewrite in_without_right, (in_without entity_eqb entity_eqb_eq).
  cbn [fst snd]. destruct (entity_eqb e e') eqn:E.
  - apply entity_eqb_eq in E as ->. split; [intros [H|[[_ H] _]]; [inversion H; reflexivity|congruence]|].
    intros H; inversion H; subst. now left.
  - rewrite by_left_in by exact B. split.
    + intros [H|[[H _] _]]; [inversion H; subst|exact H].
      rewrite (proj2 (entity_eqb_eq _ _) eq_refl) in E. discriminate.
    + intros H. right. repeat split; [exact H| |].
      * intros ->. rewrite (proj2 (entity_eqb_eq _ _) eq_refl) in E. discriminate.
      * intros ->. apply (F e'). now apply by_left_in.
Qed.
Lemma insert_result e n b : bij b -> fresh n b ->
  fst (bimap_insert e n b) = match by_left e b with None => Neither | Some n' => OLeft e n' end.
Proof.
  intros B F. unfold bimap_insert. cbn [fst].
  assert (R : by_right n (without entity_eqb e b) = None).
  { destruct (by_right n (without entity_eqb e b)) as [x|] eqn:X; [|reflexivity].
    assert (B' : bij (without entity_eqb e b))
      by (destruct B; split; now apply nodup_filter_map).
    apply by_right_in in X; [|exact B']. apply (in_without entity_eqb entity_eqb_eq) in X as [X _].
    elim (F x). now apply by_left_in. }
  rewrite R. destruct (by_left e b) as [n'|] eqn:L; [|reflexivity].
  destruct (Nat.eqb_spec n' n) as [->|]; [|reflexivity]. now elim (F e).
Qed.
Lemma bij_inj b e e' i : bij b -> by_left e b = Some i -> by_left e' b = Some i -> e = e'.
Proof.
  intros B X Y. apply by_left_in in X, Y; auto. apply by_right_in in X, Y; auto. congruence.
Qed.

(** ** A node that takes a name *)

Lemma shadow_spec e index t t' :
  bij (entities t) -> fresh index (entities t) -> layer_ e <> LShadowed ->
  t' = create_node_and_maybe_shadow e index t ->
  bij (entities t')
  /\ (forall x, by_left x (entities t') =
        if entity_eqb e x then Some index
        else match by_left e (entities t), get entity_eqb e (entity_information t) with
             | Some i, Some _ =>
                 if entity_eqb (Entity (name e) LShadowed) x then Some i else by_left x (entities t)
             | _, _ => by_left x (entities t)
             end)
  /\ entity_information t' =
       match by_left e (entities t), get entity_eqb e (entity_information t) with
       | Some _, Some info => put entity_eqb (Entity (name e) LShadowed) info (entity_information t)
       | _, _ => entity_information t
       end
  /\ t' = set_information (entity_information t') (set_entities (entities t') t).
Proof.
  intros B F NS ->. unfold create_node_and_maybe_shadow.
  pose proof (insert_result e index _ B F) as IR.
  pose proof (insert_left e index (entities t)) as IL.
  pose proof (insert_bij e index _ B) as IB.
  destruct (bimap_insert e index (entities t)) as [o b] eqn:E. cbn [fst snd] in *. subst o.
  destruct (by_left e (entities t)) as [i|] eqn:L.
  2:{ split; [exact IB|]. split; [|split; [reflexivity|destruct t; reflexivity]].
      intros x. cbn. apply IL; auto. }
  cbn [entity_information set_entities].
  destruct (get entity_eqb e (entity_information t)) as [info|] eqn:G.
  2:{ split; [exact IB|]. split; [|split; [reflexivity|destruct t; reflexivity]].
      intros x. cbn. apply IL; auto. }
  cbn [entities set_information set_entities].
  assert (F2 : fresh i b).
  { intros x X. rewrite IL in X by auto. destruct (entity_eqb e x) eqn:EX.
    - inversion X; subst. now elim (F e).
    - pose proof (bij_inj _ _ _ _ B L X). subst x.
      rewrite (proj2 (entity_eqb_eq _ _) eq_refl) in EX. discriminate. }
  split; [now apply insert_bij|]. split; [|split; [reflexivity|destruct t; reflexivity]].
  intros x. rewrite insert_left by auto. rewrite IL by auto.
  destruct (entity_eqb (Entity (name e) LShadowed) x) eqn:X; [|reflexivity].
  destruct (entity_eqb e x) eqn:Y; [|reflexivity].
  apply entity_eqb_eq in X, Y. subst x. elim NS. now rewrite Y.
Qed.

(** ** What the ledger keeps to *)

Definition known_info (k : knowledge) : option information :=
  match k with Known k w => Some (Information w k) | _ => None end.
Definition of_sort (k : entity_kind) (s : sort) : bool :=
  match k, s with
  | Constant, SValue | ImportedModule _, SModule | ModuleAlias _, SModule => true
  | _, _ => fits k s
  end.
(** It stands for its name and will. *)
Definition lasting (k : knowledge) : bool :=
  match k with
  | Stranger => true
  | Begun => false
  | Known k _ => match k with ModuleAlias _ => true | _ => defined_kind k end
  end.

Record sound (l : ledger) : Prop := {
  s_scope : forall n s i, scope l n s = Some i ->
    exists it, item_at l i it /\ i_name it = n /\ i_sort it = s /\ i_known it <> Begun;
  s_imports : forall m j, imports l m = Some j ->
    exists it w, item_at l j it /\ i_sort it = SModule /\ i_known it = Known (ImportedModule m) w;
  s_sort : forall i it k w, item_at l i it -> i_known it = Known k w -> of_sort k (i_sort it) = true;
  s_begun : forall i it, item_at l i it -> i_known it = Begun -> i_sort it = SValue /\ i_public it = false;
  s_public : forall i it, item_at l i it -> i_public it = true ->
    exists k w, i_known it = Known k w /\ defined_kind k = true;
  s_lasting : forall i it, item_at l i it -> lasting (i_known it) = true ->
    scope l (i_name it) (i_sort it) = Some i;
  s_refs : forall i j, In (i, j) (refs l) ->
    exists it jt, item_at l i it /\ item_at l j jt /\ i_known jt <> Begun
    /\ ((defined_item it = true
         /\ (i_sort jt = SModule -> scope l (i_name jt) SModule = Some j))
        \/ (i_sort jt = SModule
            /\ (imported_item it = true \/ exists m w, i_known it = Known (ModuleAlias m) w)));
  s_holder : forall i, holder l = Some i -> i < length (items l)
}.

Record tracks (l : ledger) (t : tracker) : Prop := {
  t_nodes : nodes t = length (items l);
  t_edges : edges t = refs l;
  t_holder : forall i, holder l = Some i -> current_node t = i;
  t_imports : forall m, get text_eqb m (module_name_to_node t) = imports l m;
  t_bij : bij (entities t);
  t_keys : NoDup (map fst (entity_information t));
  t_scope : forall n s, by_left (Entity n (lay s)) (entities t) = scope l n s;
  t_info : forall n s, get entity_eqb (Entity n (lay s)) (entity_information t) =
    match scope l n s with
    | Some i => match nth_error (items l) i with Some it => known_info (i_known it) | None => None end
    | None => None
    end;
  t_shadow : forall n,
    match by_left (Entity n LShadowed) (entities t) with
    | Some i => exists it k w, item_at l i it /\ i_name it = n /\ i_known it = Known k w
        /\ scope l n (i_sort it) <> Some i
        /\ get entity_eqb (Entity n LShadowed) (entity_information t) = Some (Information w k)
    | None => get entity_eqb (Entity n LShadowed) (entity_information t) = None
        /\ forall i, ~ overtaken l n i
    end;
  t_public : forall n ly, In (Entity n ly) (public_entities t) <->
    exists s i it, ly = lay s /\ scope l n s = Some i /\ item_at l i it /\ i_public it = true
}.

Lemma sound_blank : sound blank.
Proof. split; cbn; try discriminate; try tauto; intros [|i]; discriminate. Qed.
Lemma tracks_blank : tracks blank new.
Proof.
  split; cbn; try reflexivity; try discriminate; try (split; constructor); try constructor.
  - reflexivity.
  - intros i (it & H & _). destruct i; discriminate.
  - tauto.
  - intros (s & i & it & _ & H & _). discriminate.
Qed.

Lemma nth_app_new {A} (l : list A) x : nth_error (l ++ [x]) (length l) = Some x.
Proof. rewrite nth_error_app2, Nat.sub_diag by lia. reflexivity. Qed.
Lemma nth_app_old {A} (l : list A) x i y : nth_error l i = Some y -> nth_error (l ++ [x]) i = Some y.
Proof. intros H. rewrite nth_error_app1; [exact H|]. apply nth_error_Some. congruence. Qed.
Lemma nth_app_cases {A} (l : list A) x i y :
  nth_error (l ++ [x]) i = Some y -> nth_error l i = Some y \/ (i = length l /\ y = x).
Proof.
  intros H. destruct (Nat.lt_ge_cases i (length l)) as [LT|GE].
  - left. now rewrite nth_error_app1 in H.
  - right. rewrite nth_error_app2 in H by exact GE.
    destruct (i - length l) as [|k] eqn:E; cbn in H.
    + inversion H. split; [lia|reflexivity].
    + destruct k; discriminate.
Qed.
Lemma item_at_lt l i it : item_at l i it -> i < length (items l).
Proof. unfold item_at. intros H. apply nth_error_Some. congruence. Qed.

(** What a name stands for when [i] takes it. *)
Lemma scope_in n s i l n' s' :
  scope (in_scope n s i l) n' s' = if text_eqb n n' && sort_eqb s s' then Some i else scope l n' s'.
Proof. reflexivity. Qed.
Lemma takes_eq n s n' s' : text_eqb n n' && sort_eqb s s' = true <-> n = n' /\ s = s'.
Proof. rewrite andb_true_iff, text_eqb_eq, sort_eqb_eq. reflexivity. Qed.
Lemma takes_refl n s : text_eqb n n && sort_eqb s s = true. Proof. now apply takes_eq. Qed.
Lemma takes_entity n s n' s' :
  entity_eqb (Entity n (lay s)) (Entity n' (lay s')) = text_eqb n n' && sort_eqb s s'.
Proof. unfold entity_eqb. cbn. f_equal. destruct s, s'; reflexivity. Qed.

Definition takeable (n : text) (s : sort) (l : ledger) : Prop :=
  scope l n s = None
  \/ exists j it k w, scope l n s = Some j /\ item_at l j it /\ i_known it = Known k w
     /\ (imported_kind k = true \/ exists m, k = ImportedModule m /\ forall i, ~ In (i, j) (refs l)).

Lemma can_take_takeable n s l : can_take n s l -> takeable n s l.
Proof.
  unfold can_take, takeable. destruct (scope l n s) as [j|]; [|now left].
  intros (it & I & K). right. unfold imported_item in K.
  destruct (i_known it) as [| |k w] eqn:E; try discriminate. exists j, it, k, w. auto.
Qed.

(** The names after one is taken: those in the way are known, not lasting and, if modules, not
    referred to. *)
Lemma takeable_not_lasting n s l j it : takeable n s l -> scope l n s = Some j -> item_at l j it ->
  lasting (i_known it) = false /\ (exists k w, i_known it = Known k w).
Proof.
  intros [T|(j' & it' & k & w & S & I & K & H)] SC AT; [congruence|].
  rewrite SC in S; inversion S; subst j'. unfold item_at in *. rewrite AT in I; inversion I; subst it'.
  rewrite K. split; [|eauto]. destruct H as [H|(m & -> & _)]; [|reflexivity].
  destruct k; cbn in H |- *; congruence.
Qed.

Lemma sound_announce n s k w p l :
  sound l -> takeable n s l -> of_sort k s = true -> (exposed p = true -> defined_kind k = true) ->
  sound (announce n s k w p l).
Proof.
  intros S T OS PD. unfold announce.
  set (it := Item n s (Known k w) (exposed p)).
  assert (C : forall i x, item_at (held_by (length (items l)) (in_scope n s (length (items l)) (new_item it l))) i x ->
            item_at l i x \/ (i = length (items l) /\ x = it)).
  { unfold item_at. cbn. intros i x H. now apply nth_app_cases in H. }
  assert (O : forall i x, item_at l i x ->
            item_at (held_by (length (items l)) (in_scope n s (length (items l)) (new_item it l))) i x).
  { unfold item_at. cbn. intros i x H. now apply nth_app_old. }
  assert (NW : item_at (held_by (length (items l)) (in_scope n s (length (items l)) (new_item it l)))
                 (length (items l)) it).
  { unfold item_at. cbn. apply nth_app_new. }
  split.
  - intros n' s' i. cbn [scope held_by in_scope]. destruct (text_eqb n n' && sort_eqb s s') eqn:E.
    + intros H; inversion H; subst i. apply takes_eq in E as [<- <-]. exists it. repeat split; auto.
      cbn. discriminate.
    + intros H. destruct (s_scope l S n' s' i H) as (x & X & Y). exists x. auto.
  - intros m j H. destruct (s_imports l S m j H) as (x & y & X & Y). exists x, y. auto.
  - intros i x k' w' X K. apply C in X as [X|[-> ->]]; [eapply s_sort; eauto|].
    cbn in K. inversion K; subst. exact OS.
  - intros i x X K. apply C in X as [X|[-> ->]]; [eapply s_begun; eauto|discriminate].
  - intros i x X P. apply C in X as [X|[-> ->]]; [eapply s_public; eauto|].
    cbn in P |- *. exists k, w. auto.
  - intros i x X L. cbn [scope held_by in_scope]. apply C in X as [X|[-> ->]].
    + pose proof (s_lasting l S i x X L) as SC.
      destruct (text_eqb n (i_name x) && sort_eqb s (i_sort x)) eqn:E; [|exact SC].
      apply takes_eq in E as [E1 E2]. rewrite <- E1, <- E2 in SC.
      destruct (takeable_not_lasting n s l i x T SC X). congruence.
    + cbn. now rewrite takes_refl.
  - intros i j R. cbn [refs held_by in_scope new_item] in R.
    destruct (s_refs l S i j R) as (x & y & X & Y & B & H). exists x, y.
    split; [auto|]. split; [auto|]. split; [exact B|].
    destruct H as [[D M]|H]; [left|right; exact H]. split; [exact D|].
    intros SM. specialize (M SM). cbn [scope held_by in_scope].
    destruct (text_eqb n (i_name y) && sort_eqb s SModule) eqn:E; [|exact M].
    apply takes_eq in E as [-> ->]. exfalso.
    destruct T as [T|(j' & it' & k' & w' & SC & I & K & H)]; [cbn in *; congruence|].
    rewrite M in SC. inversion SC; subst j'. destruct H as [H|(m & -> & H)]; [|now elim (H i)].
    pose proof (s_sort l S j it' k' w' I K) as OS'.
    unfold item_at in *. rewrite Y in I. inversion I; subst it'. rewrite SM in OS'.
    destruct k'; cbn in *; discriminate.
  - cbn. intros i H. inversion H; subst. rewrite app_length. cbn. lia.
Qed.

(** The registration of an entity, without what it refers to. *)
Definition registered (e : entity) (info : information) (p : publicity) (t : tracker) : tracker :=
  inform e info
    (publish e p
       (set_current (nodes t)
          (create_node_and_maybe_shadow e (nodes t) (set_graph (S (nodes t)) (edges t) t)))).

Lemma tracks_fresh l t : sound l -> tracks l t -> fresh (nodes t) (entities t).
Proof.
  intros S T [n ly] H. rewrite (t_nodes l t T) in H.
  assert (exists it, item_at l (length (items l)) it) as [it I].
  { destruct ly.
    - pose proof (t_scope l t T n SType) as X. cbn [lay] in X. rewrite H in X. symmetry in X.
      destruct (s_scope l S _ _ _ X) as (it & I & _). eauto.
    - pose proof (t_scope l t T n SValue) as X. cbn [lay] in X. rewrite H in X. symmetry in X.
      destruct (s_scope l S _ _ _ X) as (it & I & _). eauto.
    - pose proof (t_shadow l t T n) as X. rewrite H in X. destruct X as (it & k & w & I & _). eauto.
    - pose proof (t_scope l t T n SModule) as X. cbn [lay] in X. rewrite H in X. symmetry in X.
      destruct (s_scope l S _ _ _ X) as (it & I & _). eauto. }
  apply item_at_lt in I. lia.
Qed.

Lemma publish_fields e p t :
  publish e p t = set_public (public_entities (publish e p t)) t
  /\ forall x, In x (public_entities (publish e p t)) <->
       In x (public_entities t) \/ (exposed p = true /\ x = e).
Proof.
  assert (C : forall x, In x (if existsb (entity_eqb e) (public_entities t) then public_entities t
                              else e :: public_entities t) <-> In x (public_entities t) \/ x = e).
  { intros x. destruct (existsb (entity_eqb e) (public_entities t)) eqn:E.
    - apply existsb_entity in E. split; [tauto|intros [H| ->]; auto].
    - cbn. split; intros [H|H]; auto. }
  destruct p; cbn [publish exposed]; split; try (destruct t; reflexivity);
    intros x; try (cbn [public_entities set_public]; rewrite C);
    intuition congruence.
Qed.

Lemma item_new it l : item_at (new_item it l) (length (items l)) it.
Proof. unfold item_at. cbn. apply nth_app_new. Qed.

Lemma tracks_announce n s k w p l t :
  sound l -> tracks l t -> takeable n s l -> (exposed p = true -> defined_kind k = true) ->
  tracks (announce n s k w p l) (registered (Entity n (lay s)) (Information w k) p t).
Proof.
  intros S T TK PD. unfold announce, registered.
  set (it := Item n s (Known k w) (exposed p)).
  set (e := Entity n (lay s)).
  set (t0 := set_graph (Datatypes.S (nodes t)) (edges t) t).
  destruct (shadow_spec e (nodes t) t0 _ (t_bij l t T) (tracks_fresh l t S T)
              ltac:(destruct s; discriminate) eq_refl) as (B & L & I & EQ).
  set (t1 := create_node_and_maybe_shadow e (nodes t) t0) in *.
  assert (E0 : entities t0 = entities t) by reflexivity.
  assert (I0 : entity_information t0 = entity_information t) by reflexivity.
  rewrite E0 in L, I. rewrite I0 in L, I.
  assert (BE : by_left e (entities t) = scope l n s) by apply (t_scope l t T).
  assert (GE : get entity_eqb e (entity_information t) =
    match scope l n s with
    | Some i => match nth_error (items l) i with Some it => known_info (i_known it) | None => None end
    | None => None end) by apply (t_info l t T).
  (* what was in the way *)
  assert (OLD : match scope l n s with
    | None => (forall x, by_left x (entities t1) = if entity_eqb e x then Some (nodes t) else by_left x (entities t))
              /\ entity_information t1 = entity_information t
    | Some j => exists jt k' w', item_at l j jt /\ i_known jt = Known k' w' /\ i_name jt = n /\ i_sort jt = s
        /\ (forall x, by_left x (entities t1) = if entity_eqb e x then Some (nodes t)
             else if entity_eqb (Entity n LShadowed) x then Some j else by_left x (entities t))
        /\ entity_information t1 = put entity_eqb (Entity n LShadowed) (Information w' k') (entity_information t)
    end).
  { rewrite BE in *. rewrite GE in *. destruct (scope l n s) as [j|] eqn:SC; [|split; auto].
    destruct (s_scope l S n s j SC) as (jt & AT & NM & SR & NB).
    destruct (takeable_not_lasting n s l j jt TK SC AT) as (_ & k' & w' & KN).
    exists jt, k', w'. unfold item_at in AT. rewrite AT, KN in L, I. cbn in L, I. auto 10. }
  clear L I BE GE.
  (* the fields of the result *)
  clearbody t1.
  set (tr := inform e (Information w k) (publish e p (set_current (nodes t) t1))).
  destruct (publish_fields e p (set_current (nodes t) t1)) as [PE PI].
  assert (F : nodes tr = Datatypes.S (nodes t) /\ edges tr = edges t /\ current_node tr = nodes t
    /\ module_name_to_node tr = module_name_to_node t /\ entities tr = entities t1
    /\ entity_information tr = put entity_eqb e (Information w k) (entity_information t1)
    /\ public_entities tr = public_entities (publish e p (set_current (nodes t) t1))
    /\ public_entities t1 = public_entities t).
  { unfold tr, inform. destruct p; cbn [publish]; cbn; rewrite EQ; repeat split; reflexivity. }
  destruct F as (FN & FE & FC & FM & FB & FI & FP & FP1).
  clearbody tr.
  assert (INF : forall x, get entity_eqb x (entity_information tr) =
            if entity_eqb e x then Some (Information w k) else get entity_eqb x (entity_information t1)).
  { intros x. rewrite FI. apply get_put, entity_eqb_eq. }
  assert (XS : forall n', entity_eqb e (Entity n' LShadowed) = false).
  { intros n'. destruct (entity_eqb e (Entity n' LShadowed)) eqn:E; [|reflexivity].
    apply entity_eqb_eq in E. inversion E. destruct s; discriminate. }
  assert (XL : forall n' s', entity_eqb (Entity n LShadowed) (Entity n' (lay s')) = false).
  { intros n' s'. destruct (entity_eqb (Entity n LShadowed) (Entity n' (lay s'))) eqn:E; [|reflexivity].
    apply entity_eqb_eq in E. inversion E. destruct s'; discriminate. }
  assert (BL : forall n' s', by_left (Entity n' (lay s')) (entities t1) =
            if text_eqb n n' && sort_eqb s s' then Some (length (items l)) else scope l n' s').
  { intros n' s'. rewrite <- (takes_entity n s n' s'). fold e. rewrite <- (t_nodes l t T).
    rewrite <- (t_scope l t T n' s').
    destruct (scope l n s) as [j|].
    - destruct OLD as (jt & k' & w' & _ & _ & _ & _ & L & _). rewrite L, XL. reflexivity.
    - destruct OLD as [L _]. apply L. }
  assert (GI : forall n' s', get entity_eqb (Entity n' (lay s')) (entity_information t1)
                = get entity_eqb (Entity n' (lay s')) (entity_information t)).
  { intros n' s'. destruct (scope l n s) as [j|].
    - destruct OLD as (jt & k' & w' & _ & _ & _ & _ & _ & I). rewrite I.
      rewrite (get_put entity_eqb entity_eqb_eq), XL. reflexivity.
    - destruct OLD as [_ ->]. reflexivity. }
  assert (OLDER : forall i x, nth_error (items l) i = Some x -> nth_error (items l ++ [it]) i = Some x)
    by (intros; now apply nth_app_old).
  split.
  - rewrite FN, (t_nodes l t T). cbn. rewrite app_length. cbn. lia.
  - rewrite FE, (t_edges l t T). reflexivity.
  - cbn. intros i H. inversion H. now rewrite FC, (t_nodes l t T).
  - rewrite FM. intros m. apply (t_imports l t T).
  - now rewrite FB.
  - rewrite FI. apply nodup_put; [apply entity_eqb_eq|].
    destruct (scope l n s) as [j|].
    + destruct OLD as (jt & k' & w' & _ & _ & _ & _ & _ & ->).
      apply nodup_put; [apply entity_eqb_eq|apply (t_keys l t T)].
    + destruct OLD as [_ ->]. apply (t_keys l t T).
  - intros n' s'. rewrite FB. apply BL.
  - intros n' s'. rewrite INF. unfold e. rewrite takes_entity. cbn [scope held_by in_scope].
    destruct (text_eqb n n' && sort_eqb s s') eqn:E.
    + cbn. rewrite nth_app_new. reflexivity.
    + rewrite GI, (t_info l t T). cbn.
      destruct (scope l n' s') as [i|] eqn:SC; [|reflexivity].
      destruct (s_scope l S _ _ _ SC) as (x & X & _). unfold item_at in X. now rewrite X, (OLDER _ _ X).
  - intros n'. rewrite FB.
    (* the shadowed name *)
    assert (SH : by_left (Entity n' LShadowed) (entities t1) =
              match scope l n s with
              | Some j => if text_eqb n n' then Some j else by_left (Entity n' LShadowed) (entities t)
              | None => by_left (Entity n' LShadowed) (entities t) end).
    { destruct (scope l n s) as [j|].
      - destruct OLD as (jt & k' & w' & _ & _ & _ & _ & L & _). rewrite L, XS.
        unfold entity_eqb at 1. cbn. rewrite andb_true_r. reflexivity.
      - destruct OLD as [L _]. now rewrite L, XS. }
    rewrite INF, XS, SH. clear SH INF.
    pose proof (t_shadow l t T n') as OT.
    destruct (scope l n s) as [j|] eqn:SC.
    + destruct OLD as (jt & k' & w' & AT & KN & NM & SR & L & I).
      rewrite I, (get_put entity_eqb entity_eqb_eq).
      assert (Z : entity_eqb (Entity n LShadowed) (Entity n' LShadowed) = text_eqb n n').
      { unfold entity_eqb. cbn. apply andb_true_r. }
      rewrite Z. destruct (text_eqb n n') eqn:E.
      * apply text_eqb_eq in E as <-. exists jt, k', w'.
        split; [unfold item_at; cbn; now apply OLDER|]. split; [exact NM|]. split; [exact KN|].
        split; [|reflexivity]. cbn. rewrite SR, takes_refl. intros X. inversion X.
        apply item_at_lt in AT. lia.
      * destruct (by_left (Entity n' LShadowed) (entities t)) as [i|].
        -- destruct OT as (x & kx & wx & AX & NX & KX & SX & GX). exists x, kx, wx.
           split; [unfold item_at; cbn; now apply OLDER|]. split; [exact NX|]. split; [exact KX|].
           split; [|exact GX]. cbn. rewrite E. exact SX.
        -- destruct OT as [G O]. split; [exact G|]. intros i (x & AX & NX & BX & SX).
           unfold item_at in AX. cbn in AX, SX. apply nth_app_cases in AX as [AX|[-> ->]].
           ++ apply (O i). exists x. repeat split; auto. rewrite E in SX. exact SX.
           ++ cbn in NX. subst n'. now rewrite text_eqb_refl in E.
    + destruct OLD as [L I]. rewrite I.
      destruct (by_left (Entity n' LShadowed) (entities t)) as [i|].
      * destruct OT as (x & kx & wx & AX & NX & KX & SX & GX). exists x, kx, wx.
        split; [unfold item_at; cbn; now apply OLDER|]. split; [exact NX|]. split; [exact KX|].
        split; [|exact GX]. cbn. destruct (text_eqb n n' && sort_eqb s (i_sort x)) eqn:E; [|exact SX].
        intros H; inversion H. apply item_at_lt in AX. lia.
      * destruct OT as [G O]. split; [exact G|]. intros i (x & AX & NX & BX & SX).
        unfold item_at in AX. cbn in AX, SX. apply nth_app_cases in AX as [AX|[-> ->]].
        -- apply (O i). exists x. repeat split; auto.
           destruct (text_eqb n n' && sort_eqb s (i_sort x)) eqn:E; [|exact SX].
           apply takes_eq in E as [<- <-]. rewrite SC. discriminate.
        -- cbn in NX, SX. subst n'. rewrite takes_refl in SX. congruence.
  - intros n' ly. rewrite FP, PI. cbn [public_entities set_current]. rewrite FP1, (t_public l t T). cbn.
    split.
    + intros [(s' & i & x & -> & SC & AT & PX)|[PX E]].
      * exists s', i, x. split; [reflexivity|].
        assert (LS : lasting (i_known x) = true).
        { destruct (s_public l S i x AT PX) as (kx & wx & -> & D). cbn. now destruct kx. }
        destruct (text_eqb n n' && sort_eqb s s') eqn:E.
        { apply takes_eq in E as [<- <-].
          destruct (takeable_not_lasting n s l i x TK SC AT). congruence. }
        split; [exact SC|]. split; [unfold item_at; cbn; now apply OLDER|exact PX].
      * inversion E; subst. exists s, (length (items l)), it.
        rewrite takes_refl. repeat split; auto. unfold item_at. cbn. apply nth_app_new.
    + intros (s' & i & x & -> & SC & AT & PX).
      destruct (text_eqb n n' && sort_eqb s s') eqn:E.
      * inversion SC; subst i. unfold item_at in AT. cbn in AT. rewrite nth_app_new in AT.
        inversion AT; subst x. right. apply takes_eq in E as [-> ->]. split; [exact PX|reflexivity].
      * left. exists s', i, x. split; [reflexivity|]. split; [exact SC|].
        destruct (s_scope l S _ _ _ SC) as (y & Y & _).
        unfold item_at in AT |- *. cbn in AT. rewrite (OLDER _ _ Y) in AT. inversion AT; subst. now split.
Qed.
