(** The names types are printed with are names of those types. *)
From Coq Require Import String NArith List Bool Arith Lia.
From Verif Require Import Text TextProofs Lexer LexerSpec TypePrinter TypePrinterSpec.
Import ListNotations.
Local Open Scope list_scope.
Local Open Scope nat_scope.

(** ** Induction over types *)
Section Induction.
  Variable P : type -> Prop.
  Hypothesis named : forall m n a, Forall P a -> P (Named m n a).
  Hypothesis fn : forall a r, Forall P a -> P r -> P (TFn a r).
  Hypothesis var : forall i, P (Var i).
  Hypothesis tuple : forall e, Forall P e -> P (Tuple e).
  Fixpoint type_induction (t : type) : P t :=
    let fix all (l : list type) : Forall P l :=
      match l with
      | [] => Forall_nil P
      | t :: l => Forall_cons t (type_induction t) (all l)
      end in
    match t with
    | Named m n a => named m n a (all a)
    | TFn a r => fn a r (all a) (type_induction r)
    | Var i => var i
    | Tuple e => tuple e (all e)
    end.
End Induction.

Lemma all_same_eq a : Forall (fun t => forall t', same_as t t' = true <-> t = t') a ->
  forall b, all_same same_as a b = true <-> a = b.
Proof.
  induction 1 as [|t a H _ IH]; intros [|t' b]; cbn; split; try easy.
  - intros E. apply andb_true_iff in E as [E1 E2]. apply H in E1. apply IH in E2. congruence.
  - intros E. injection E as -> ->. apply andb_true_iff. split; [now apply H|now apply IH].
Qed.
Lemma same_as_eq t : forall t', same_as t t' = true <-> t = t'.
Proof.
  induction t as [m n a H|a r H Hr|i|e H] using type_induction; intros [m' n' a'|a' r'|i'|e']; cbn; split; try easy.
  - intros E. apply andb_true_iff in E as [E E3]. apply andb_true_iff in E as [E1 E2].
    apply text_eqb_eq in E1, E2. apply (all_same_eq _ H) in E3. congruence.
  - intros E. injection E as -> -> ->. rewrite !text_eqb_refl. cbn. now apply (all_same_eq _ H).
  - intros E. apply andb_true_iff in E as [E1 E2]. apply (all_same_eq _ H) in E1. apply Hr in E2. congruence.
  - intros E. injection E as -> ->. apply andb_true_iff. split; [now apply (all_same_eq _ H)|now apply Hr].
  - intros E. apply N.eqb_eq in E. congruence.
  - intros E. injection E as ->. apply N.eqb_refl.
  - intros E. apply (all_same_eq _ H) in E. congruence.
  - intros E. injection E as ->. now apply (all_same_eq _ H).
Qed.
Lemma compare_arguments_eq a b : compare_arguments a b = true <-> a = b.
Proof. apply all_same_eq. apply Forall_forall. intros t _. apply same_as_eq. Qed.

(** ** Maps *)
Lemma get_entry {A} k (l : list (text * A)) : get text_eqb k l = entry k l.
Proof.
  induction l as [|[k' a] l IH]; cbn; [reflexivity|]. destruct (list_eq_dec N.eq_dec k k') as [->|N].
  - now rewrite text_eqb_refl.
  - destruct (text_eqb k k') eqn:E; [apply text_eqb_eq in E; contradiction|auto].
Qed.
Lemma pair_eqb_eq a b : pair_eqb a b = true <-> a = b.
Proof.
  unfold pair_eqb. destruct a, b; cbn. split.
  - intros E. apply andb_true_iff in E as [E1 E2]. apply text_eqb_eq in E1, E2. congruence.
  - intros E. injection E as -> ->. now rewrite !text_eqb_refl.
Qed.
Section MapProofs.
  Context {K V : Type} (same : K -> K -> bool) (same_eq : forall a b, same a b = true <-> a = b).
  Lemma get_in k (v : V) m : get same k m = Some v -> In (k, v) m.
  Proof.
    induction m as [|[k' v'] m IH]; cbn; [easy|]. destruct (same k k') eqn:E; [|auto].
    apply same_eq in E. intros H. injection H as ->. subst. auto.
  Qed.
  Lemma in_get k (v : V) m : In (k, v) m -> exists v', get same k m = Some v'.
  Proof.
    induction m as [|[k' v'] m IH]; cbn; [easy|]. intros [E|H].
    - injection E as -> ->. rewrite (proj2 (same_eq k k) eq_refl). eauto.
    - destruct (same k k'); eauto.
  Qed.
  Lemma get_without k k' (m : list (K * V)) : get same k' (without same k m) = if same k k' then None else get same k' m.
  Proof.
    unfold without in *. induction m as [|[j v] m IH]; cbn; [now destruct (same k k')|].
    destruct (same k j) eqn:E; cbn.
    - apply same_eq in E. subst j. rewrite IH. destruct (same k k') eqn:E; [reflexivity|].
      destruct (same k' k) eqn:E'; [|reflexivity]. apply same_eq in E'. subst. rewrite (proj2 (same_eq k k) eq_refl) in E. discriminate.
    - destruct (same k' j) eqn:E2; [|apply IH]. apply same_eq in E2. subst j. now rewrite E.
  Qed.
  Lemma get_put k k' (v : V) m : get same k' (put same k v m) = if same k' k then Some v else get same k' m.
  Proof.
    unfold put. cbn [get]. rewrite get_without. destruct (same k' k) eqn:E; [reflexivity|]. destruct (same k k') eqn:E'; [|reflexivity].
    apply same_eq in E'. subst. rewrite (proj2 (same_eq k' k') eq_refl) in E. discriminate.
  Qed.
  Lemma in_without k k' (v : V) m : In (k', v) (without same k m) <-> In (k', v) m /\ k <> k'.
  Proof.
    unfold without. rewrite filter_In. cbn. split; intros [A B]; split; auto.
    - intros ->. rewrite (proj2 (same_eq k' k') eq_refl) in B. discriminate.
    - destruct (same k k') eqn:E; [apply same_eq in E; contradiction|reflexivity].
  Qed.
End MapProofs.
Lemma text_eqb_iff a b : text_eqb a b = true <-> a = b.
Proof. split; [apply text_eqb_eq|intros ->; apply text_eqb_refl]. Qed.
Lemma in_remove_by_right r l a (b : bimap) : In (l, a) (remove_by_right r b) <-> In (l, a) b /\ r <> a.
Proof.
  unfold remove_by_right. rewrite filter_In. cbn. split; intros [A B]; split; auto.
  - intros ->. now rewrite text_eqb_refl in B.
  - destruct (text_eqb r a) eqn:E; [apply text_eqb_eq in E; contradiction|reflexivity].
Qed.
Lemma in_bimap_insert l r l' a b : In (l', a) (bimap_insert l r b) <->
  (l', a) = (l, r) \/ (In (l', a) b /\ l <> l' /\ r <> a).
Proof.
  unfold bimap_insert. cbn. rewrite in_remove_by_right, (in_without _ pair_eqb_eq). split.
  - intros [E|H]; [left; congruence|tauto].
  - intros [E|H]; [left; congruence|tauto].
Qed.

(** ** Local names *)
Definition names_it (mt : list (text * type_constructor)) (a m n : text) : Prop :=
  exists c, get text_eqb a mt = Some c /\ is_the_type m n c.
Record local_scope (arity : text -> text -> nat) (mt : list (text * type_constructor)) (b : bimap) : Prop := {
  ls_types : forall a c, get text_eqb a mt = Some c ->
    is_a_type_name a /\ sound_parameters (tc_parameters c) /\ well_formed arity (tc_type c);
  ls_prelude : forall a c, get text_eqb a mt = Some c -> tc_module c = prelude -> exists n, is_the_type prelude n c;
  ls_local : forall m n a, In ((m, n), a) b -> names_it mt a m n;
  ls_complete : forall a m n, names_it mt a m n -> m <> prelude -> exists a', In ((m, n), a') b
}.
Record tame_scope (mt : list (text * type_constructor)) (b : bimap) : Prop := {
  ts_complete : forall a n, names_it mt a prelude n -> exists a', In ((prelude, n), a') b;
  ts_only : forall n a c, In ((prelude, n), a) b -> get text_eqb a mt = Some c -> tc_module c = prelude ->
    forall a2, names_it mt a2 prelude n -> a2 = a
}.
Lemma type_in_scope_local a c ns m n a' :
  In ((m, n), a') (local_types (type_in_scope a (tc_type c) (tc_parameters c) ns)) <->
  (is_the_type m n c /\ a' = a)
  \/ (In ((m, n), a') (local_types ns) /\ a' <> a /\ ~ is_the_type m n c).
Proof.
  unfold type_in_scope, is_the_type.
  destruct (tc_type c) as [m0 n0 args|a0 r0|i|e0] eqn:T; cbn [set_local_types local_types].
  - destruct (compare_arguments args (tc_parameters c)) eqn:E.
    + apply compare_arguments_eq in E. subst args. unfold named_type_in_scope. cbn [set_local_types local_types].
      rewrite in_bimap_insert, in_remove_by_right. split.
      * intros [H|[[H1 H2] [H3 H4]]]; [left; injection H as -> -> ->; auto|right].
        split; [auto|]. split; [congruence|]. intros H. injection H as -> ->. congruence.
      * intros [[H ->]|[H1 [H2 H3]]]; [left; injection H as -> ->; auto|right].
        repeat split; try congruence; auto.
    + cbn [set_local_types local_types]. rewrite in_remove_by_right. split.
      * intros [H1 H2]. right. repeat split; auto; try congruence. intros H. injection H as -> -> ->.
        rewrite (proj2 (compare_arguments_eq _ _) eq_refl) in E. discriminate.
      * intros [[H ->]|[H1 [H2 H3]]]; [|split; auto; congruence]. exfalso. injection H as -> -> ->.
        rewrite (proj2 (compare_arguments_eq _ _) eq_refl) in E. discriminate.
  - rewrite in_remove_by_right. split; [intros [H1 H2]; right; repeat split; auto; congruence|].
    intros [[H ->]|[H1 [H2 H3]]]; [discriminate|split; auto; congruence].
  - rewrite in_remove_by_right. split; [intros [H1 H2]; right; repeat split; auto; congruence|].
    intros [[H ->]|[H1 [H2 H3]]]; [discriminate|split; auto; congruence].
  - rewrite in_remove_by_right. split; [intros [H1 H2]; right; repeat split; auto; congruence|].
    intros [[H ->]|[H1 [H2 H3]]]; [discriminate|split; auto; congruence].
Qed.
Lemma names_put mt a c a' m n : names_it (put text_eqb a c mt) a' m n <->
  (a' = a /\ is_the_type m n c) \/ (a' <> a /\ names_it mt a' m n).
Proof.
  unfold names_it. setoid_rewrite (get_put _ text_eqb_iff). destruct (text_eqb a' a) eqn:E.
  - apply text_eqb_eq in E. subst. split.
    + intros [c' [H I]]. injection H as ->. auto.
    + intros [[_ I]|[H _]]; [eauto|congruence].
  - assert (a' <> a) by (intros ->; now rewrite text_eqb_refl in E). split; [auto|]. intros [[H' _]|[_ H']]; [congruence|auto].
Qed.
Definition free_name (mt : list (text * type_constructor)) (a : text) : Prop :=
  forall c, get text_eqb a mt = Some c -> tc_module c = prelude.
Lemma the_type_one m n m' n' c : is_the_type m n c -> is_the_type m' n' c -> m = m' /\ n = n'.
Proof. unfold is_the_type. intros A B. rewrite A in B. injection B as -> ->. auto. Qed.
(** A type gets a name. *)
Lemma bound_scope arity mt ns a c :
  local_scope arity mt (local_types ns) -> free_name mt a -> is_a_type_name a ->
  sound_parameters (tc_parameters c) -> well_formed arity (tc_type c) ->
  (tc_module c = prelude -> exists n, is_the_type prelude n c) ->
  local_scope arity (put text_eqb a c mt) (local_types (type_in_scope a (tc_type c) (tc_parameters c) ns)).
Proof.
  intros [T P L C] F A S W Pc. constructor.
  - intros a' c'. rewrite (get_put _ text_eqb_iff). destruct (text_eqb a' a) eqn:E; [|apply T].
    apply text_eqb_eq in E. intros H. injection H as <-. subst. auto.
  - intros a' c'. rewrite (get_put _ text_eqb_iff). destruct (text_eqb a' a) eqn:E; [|apply P].
    intros H. injection H as <-. auto.
  - intros m n a' H. apply type_in_scope_local in H. apply names_put. destruct H as [[H ->]|[H1 [H2 H3]]]; auto.
  - intros a' m n H Hm.
    assert (D : is_the_type m n c \/ ~ is_the_type m n c).
    { unfold is_the_type. destruct (same_as (tc_type c) (Named m n (tc_parameters c))) eqn:E.
      - left. now apply same_as_eq.
      - right. intros H'. apply same_as_eq in H'. congruence. }
    destruct D as [D|D].
    + exists a. apply type_in_scope_local. auto.
    + apply names_put in H. destruct H as [[_ H]|[H1 H2]]; [contradiction|].
      destruct (C a' m n H2 Hm) as [a2 I]. exists a2. apply type_in_scope_local. right. split; [auto|]. split; [|auto].
      intros ->. destruct (L _ _ _ I) as [c2 [G2 I2]]. destruct (P _ _ G2 (F _ G2)) as [n' I3].
      destruct (the_type_one _ _ _ _ _ I2 I3). auto.
Qed.
Lemma bound_tame arity mt ns a c :
  local_scope arity mt (local_types ns) -> tame_scope mt (local_types ns) -> free_name mt a ->
  tc_module c <> prelude ->
  tame_scope (put text_eqb a c mt) (local_types (type_in_scope a (tc_type c) (tc_parameters c) ns)).
Proof.
  intros [T P L C] [TC TO] F M.
  assert (D : forall m n, is_the_type m n c \/ ~ is_the_type m n c).
  { intros m n. unfold is_the_type. destruct (same_as (tc_type c) (Named m n (tc_parameters c))) eqn:E.
    - left. now apply same_as_eq.
    - right. intros H'. apply same_as_eq in H'. congruence. }
  constructor.
  - intros a' n H. destruct (D prelude n) as [Dn|Dn].
    + exists a. apply type_in_scope_local. auto.
    + apply names_put in H. destruct H as [[_ H]|[H1 H2]]; [contradiction|].
      destruct (TC a' n H2) as [a2 I]. exists a2. apply type_in_scope_local. right. split; [auto|]. split; [|auto].
      intros ->. destruct (L _ _ _ I) as [c2 [G2 I2]]. apply H1. eapply TO; eauto.
  - intros n a' c' I G Mc a2 H. apply type_in_scope_local in I. rewrite (get_put _ text_eqb_iff) in G.
    destruct I as [[I ->]|[I1 [I2 I3]]].
    + rewrite text_eqb_refl in G. injection G as <-. contradiction.
    + apply names_put in H. destruct H as [[_ H]|[H1 H2]]; [contradiction|].
      destruct (text_eqb a' a) eqn:E; [apply text_eqb_eq in E; contradiction|]. eapply TO; eauto.
Qed.

(** ** The whole scope *)
Record scope (arity : text -> text -> nat) (w : world) (module : text) (e : environment) : Prop := {
  s_module : current_module e = module;
  s_local : local_scope arity (module_types e) (local_types (env_names e));
  s_imported : forall m u, get text_eqb m (imported_modules (env_names e)) = Some u ->
    is_a_name u /\ exists i, get text_eqb u (env_imported_modules e) = Some i /\ entry m (modules w) = Some i;
  s_reexport : forall m n m' x, get pair_eqb (m, n) (reexport_aliases (env_names e)) = Some (m', x) ->
    reexports w m' x m n \/ (m <> prelude /\ exists a, names_it (module_types e) a m n);
  s_reexported : forall m n m' x, reexports w m' x m n ->
    get pair_eqb (m, n) (reexport_aliases (env_names e)) <> None
}.

Lemma name_taken_free n e : name_taken n e = false -> free_name (module_types e) n.
Proof.
  unfold name_taken, free_name. intros H c G. rewrite G in H. destruct (text_eqb (tc_module c) prelude) eqn:E; [|discriminate].
  now apply text_eqb_eq in E.
Qed.

(** What a statement leaves as it is. *)
Record extends (e e' : environment) : Prop := {
  x_types : forall a c, get text_eqb a (module_types e) = Some c -> tc_module c <> prelude ->
    get text_eqb a (module_types e') = Some c;
  x_imported : forall m u, get text_eqb m (imported_modules (env_names e)) = Some u ->
    exists u', get text_eqb m (imported_modules (env_names e')) = Some u'
}.
Lemma extends_refl e : extends e e.
Proof. constructor; eauto. Qed.
Lemma extends_trans e e' e'' : extends e e' -> extends e' e'' -> extends e e''.
Proof.
  intros [A B] [A' B']. constructor; [auto|]. intros m u H. destruct (B _ _ H) as [u' H']. eauto.
Qed.
(** A name is bound and nothing else changes but the local types. *)
Record binds (a : text) (c : type_constructor) (e e' : environment) : Prop := {
  b_module : current_module e' = current_module e;
  b_free : free_name (module_types e) a;
  b_types : module_types e' = put text_eqb a c (module_types e);
  b_local : local_types (env_names e') = local_types (type_in_scope a (tc_type c) (tc_parameters c) (env_names e));
  b_modules : env_imported_modules e' = env_imported_modules e;
  b_imported : imported_modules (env_names e') = imported_modules (env_names e)
}.
Lemma binds_extends a c e e' : binds a c e e' -> extends e e'.
Proof.
  intros [M F T L I I']. constructor.
  - intros a' c' G N. rewrite T, (get_put _ text_eqb_iff). destruct (text_eqb a' a) eqn:E; [|auto].
    apply text_eqb_eq in E. subst. exfalso. apply N. auto.
  - rewrite I'. eauto.
Qed.
Lemma binds_get a c e e' : binds a c e e' -> get text_eqb a (module_types e') = Some c.
Proof. intros [M F T L I I']. rewrite T, (get_put _ text_eqb_iff), text_eqb_refl. reflexivity. Qed.
Lemma binds_other a c e e' a' : binds a c e e' -> a' <> a -> get text_eqb a' (module_types e') = get text_eqb a' (module_types e).
Proof.
  intros [M F T L I I'] N. rewrite T, (get_put _ text_eqb_iff). destruct (text_eqb a' a) eqn:E; [|reflexivity].
  apply text_eqb_eq in E. contradiction.
Qed.
(** The name of a type outside the prelude stays, perhaps another one. *)
Lemma binds_still arity a c e e' m n :
  binds a c e e' -> local_scope arity (module_types e) (local_types (env_names e)) ->
  m <> prelude -> (exists a', names_it (module_types e) a' m n) -> exists a', names_it (module_types e') a' m n.
Proof.
  intros B S M [a' [c' [G I]]]. exists a', c'. split; [|auto]. apply (x_types _ _ (binds_extends _ _ _ _ B)); [auto|].
  intros E. destruct (ls_prelude _ _ _ S _ _ G E) as [n' I']. destruct (the_type_one _ _ _ _ _ I I'). contradiction.
Qed.
Lemma binds_scope arity w module a c e e' :
  binds a c e e' -> scope arity w module e -> is_a_type_name a ->
  sound_parameters (tc_parameters c) -> well_formed arity (tc_type c) ->
  (tc_module c = prelude -> exists n, is_the_type prelude n c) ->
  (forall m n m' x, get pair_eqb (m, n) (reexport_aliases (env_names e')) = Some (m', x) ->
     get pair_eqb (m, n) (reexport_aliases (env_names e)) = Some (m', x)
     \/ (m <> prelude /\ is_the_type m n c)) ->
  (forall k, get pair_eqb k (reexport_aliases (env_names e)) <> None ->
     get pair_eqb k (reexport_aliases (env_names e')) <> None) ->
  scope arity w module e'.
Proof.
  intros B [M S I R R'] A P W Pc X X'. pose proof B as B0. destruct B as [Bm Bf Bt Bl Bi Bi']. constructor.
  - congruence.
  - rewrite Bt, Bl. now apply bound_scope.
  - rewrite Bi, Bi'. exact I.
  - intros m n m' x H. destruct (X _ _ _ _ H) as [H'|[Hm H']].
    + destruct (R _ _ _ _ H') as [H2|[Hm H2]]; [auto|]. right. split; [auto|]. eapply binds_still; eauto.
    + right. split; [auto|]. exists a, c. split; [|auto]. eapply binds_get; eauto.
  - intros m n m' x H. apply X'. eauto.
Qed.
Lemma binds_tame arity a c e e' :
  binds a c e e' -> local_scope arity (module_types e) (local_types (env_names e)) ->
  tame_scope (module_types e) (local_types (env_names e)) -> tc_module c <> prelude ->
  tame_scope (module_types e') (local_types (env_names e')).
Proof.
  intros [Bm Bf Bt Bl Bi Bi'] S T N. rewrite Bt, Bl. eapply bound_tame; eauto.
Qed.

(** ** Each statement *)
Lemma type_in_scope_rest a t ps ns :
  imported_modules (type_in_scope a t ps ns) = imported_modules ns
  /\ reexport_aliases (type_in_scope a t ps ns) = reexport_aliases ns.
Proof. unfold type_in_scope. destruct t; try destruct (compare_arguments arguments ps); split; reflexivity. Qed.
Lemma the_constructor_in_scope m n ps ns :
  named_type_in_scope m n n ns = type_in_scope n (Named m n ps) ps ns.
Proof. unfold type_in_scope. now rewrite (proj2 (compare_arguments_eq ps ps) eq_refl). Qed.
Lemma insert_inv n c e e' : insert_type_constructor n c e = Some e' ->
  name_taken n e = false
  /\ e' = Environment (current_module e) (current_package e) (put text_eqb n c (module_types e))
            (env_imported_modules e) (env_names e).
Proof. unfold insert_type_constructor. destruct (name_taken n e); [discriminate|]. intros H. injection H as <-. auto. Qed.

Lemma custom_type_binds n ids importable e e' : register_custom_type n ids importable e = Some e' ->
  let c := TypeConstructor (current_module e) (map Var ids) (Named (current_module e) n (map Var ids)) importable in
  binds n c e e' /\ reexport_aliases (env_names e') = reexport_aliases (env_names e).
Proof.
  unfold register_custom_type. destruct (name_taken n e) eqn:T; [discriminate|].
  destruct (insert_type_constructor _ _ _) as [e1|] eqn:I; [|discriminate]. intros H. injection H as <-.
  apply insert_inv in I as [_ ->]. cbn. split; [|reflexivity]. constructor; try reflexivity.
  - now apply name_taken_free.
  - cbn [tc_type tc_parameters set_names env_names]. now rewrite <- the_constructor_in_scope.
Qed.
Lemma maybe_reexport_rest w package m x a ns :
  local_types (maybe_register_reexport_alias w package m x a ns) = local_types ns
  /\ imported_modules (maybe_register_reexport_alias w package m x a ns) = imported_modules ns
  /\ type_variables (maybe_register_reexport_alias w package m x a ns) = type_variables ns.
Proof. unfold maybe_register_reexport_alias. destruct (ta_type a); auto. destruct (_ && _); auto. Qed.
Lemma maybe_reexport_get w package m' x a ns k :
  get pair_eqb k (reexport_aliases (maybe_register_reexport_alias w package m' x a ns))
  = match ta_type a with
    | Named m n args =>
        if text_eqb (type_package w m n) package && type_internal w m n && compare_arguments args (ta_parameters a)
           && pair_eqb k (m, n)
        then Some (m', x) else get pair_eqb k (reexport_aliases ns)
    | _ => get pair_eqb k (reexport_aliases ns)
    end.
Proof.
  unfold maybe_register_reexport_alias. destruct (ta_type a) as [m n args| | |]; try reflexivity.
  destruct (text_eqb (type_package w m n) package && type_internal w m n && compare_arguments args (ta_parameters a)) eqn:E;
    cbn [reexport_aliases andb]; [|reflexivity].
  now rewrite (get_put _ pair_eqb_eq).
Qed.
Lemma alias_binds w n ids t importable public e e' :
  register_type_alias w n ids t importable public e = Some e' ->
  let c := TypeConstructor (current_module e) (map Var ids) t importable in
  binds n c e e'
  /\ exists pk m x, reexport_aliases (env_names e')
       = reexport_aliases (maybe_register_reexport_alias w pk m x (TypeAlias (map Var ids) t public) (env_names e)).
Proof.
  unfold register_type_alias. destruct (name_taken n e) eqn:T; [discriminate|].
  destruct (insert_type_constructor _ _ _) as [e1|] eqn:I; [|discriminate]. intros H. injection H as <-.
  apply insert_inv in I as [_ ->]. cbn [current_module current_package module_types env_imported_modules env_names set_names].
  split.
  - constructor; cbn [current_module current_package module_types env_imported_modules env_names set_names tc_type tc_parameters]; try reflexivity.
    + now apply name_taken_free.
    + apply maybe_reexport_rest.
    + rewrite (proj1 (proj2 (maybe_reexport_rest _ _ _ _ _ _))). apply type_in_scope_rest.
  - exists (current_package e), (current_module e), n. unfold maybe_register_reexport_alias. cbn [ta_type ta_parameters].
    destruct t; try apply type_in_scope_rest.
    destruct (_ && _); cbn [reexport_aliases]; [f_equal|]; apply type_in_scope_rest.
Qed.
Lemma unqualified_binds i x y e e' : register_unqualified_type i (x, y) e = Some e' ->
  exists c, get text_eqb x (mi_types i) = Some c /\ tc_importable c = true
    /\ binds (match y with Some n => n | None => x end) c e e'
    /\ reexport_aliases (env_names e') = reexport_aliases (env_names e).
Proof.
  unfold register_unqualified_type, get_importable_type. cbn [fst snd].
  destruct (get text_eqb x (mi_types i)) as [c|] eqn:G; [|discriminate].
  destruct (tc_importable c) eqn:Ic; [|discriminate]. intros H. exists c. split; [auto|]. split; [auto|].
  apply insert_inv in H as [T ->]. cbn [set_names env_names]. split; [|apply type_in_scope_rest].
  constructor; try reflexivity.
  - now apply name_taken_free in T.
  - apply type_in_scope_rest.
Qed.

(** What a statement does. *)
Record effect (arity : text -> text -> nat) (w : world) (module : text) (e e' : environment) (names : list text) : Prop := {
  f_scope : scope arity w module e';
  f_extends : extends e e';
  f_others : forall a, ~ In a names -> get text_eqb a (module_types e') = get text_eqb a (module_types e)
}.
Lemma effect_trans arity w module e e' e'' ns ns' :
  effect arity w module e e' ns -> effect arity w module e' e'' ns' -> effect arity w module e e'' (ns ++ ns').
Proof.
  intros [S X O] [S' X' O']. constructor; [auto|eapply extends_trans; eauto|].
  intros a H. rewrite in_app_iff in H. rewrite O', O; tauto.
Qed.
Section Sound.
  Variables (arity : text -> text -> nat) (w : world) (module : text).
  Hypothesis Sw : sound_world arity w.
  Hypothesis Mp : module <> prelude.

  Lemma imported_constructor m i x c :
    entry m (modules w) = Some i -> get text_eqb x (mi_types i) = Some c ->
    is_a_type_name x /\ tc_module c = m /\ sound_parameters (tc_parameters c) /\ well_formed arity (tc_type c)
    /\ (tc_module c = prelude -> exists n, is_the_type prelude n c).
  Proof.
    intros E G. apply (get_in _ text_eqb_iff) in G. destruct (sound_types _ _ Sw _ _ _ _ E G) as [A [_ [B [C D]]]].
    repeat split; auto. intros H. destruct (sound_prelude _ _ Sw) as [p [E' [P _]]]. rewrite B in H. subst m.
    rewrite H in E. rewrite E in E'. injection E' as <-. eauto.
  Qed.
  Lemma unqualified_types m i : entry m (modules w) = Some i -> forall types e e',
    (forall x y, In (x, Some y) types -> is_a_type_name y) ->
    register_unqualified_types i types e = Some e' -> scope arity w module e ->
    effect arity w module e e' (map (fun x => match snd x with Some y => y | None => fst x end) types)
    /\ (m <> prelude -> tame_scope (module_types e) (local_types (env_names e)) ->
        tame_scope (module_types e') (local_types (env_names e')))
    /\ (forall x y, In (x, y) types -> exists c, get text_eqb x (mi_types i) = Some c /\ tc_importable c = true
          /\ (tc_module c <> prelude ->
              get text_eqb (match y with Some n => n | None => x end) (module_types e') = Some c)).
  Proof.
    intros E. induction types as [|[x y] types IH]; intros e e' A R S.
    - cbn in R. injection R as <-. split; [constructor; auto using extends_refl|]. split; [auto|]. intros x y [].
    - cbn [register_unqualified_types] in R. destruct (register_unqualified_type i (x, y) e) as [e1|] eqn:R1; [|discriminate].
      apply unqualified_binds in R1. destruct R1 as [c [G [Ic [B X]]]].
      destruct (imported_constructor _ _ _ _ E G) as [Ax [Mc [P [W Pc]]]].
      assert (S1 : scope arity w module e1).
      { eapply binds_scope; eauto.
        - destruct y; [|auto]. eapply A. left. reflexivity.
        - intros. rewrite X in *. auto.
        - intros k. now rewrite X. }
      destruct (IH e1 e') as [F [T N]]; auto.
      { intros x' y' H. apply (A x'). now right. }
      split; [|split].
      + change (map _ ((x, y) :: types)) with ([match y with Some n => n | None => x end] ++ map (fun x => match snd x with Some y => y | None => fst x end) types).
        eapply effect_trans; [|exact F]. constructor; [auto|eapply binds_extends; eauto|].
        intros a H. eapply binds_other; eauto. intros ->. apply H. now left.
      + intros Hm Ht. apply T; [auto|]. eapply binds_tame; eauto; [apply S|congruence].
      + intros x' y' [H|H]; [|auto]. injection H as -> ->. exists c. split; [auto|]. split; [auto|].
        intros Hc. apply (x_types _ _ (f_extends _ _ _ _ _ _ F)); [|auto]. eapply binds_get; eauto.
  Qed.
  Lemma module_registered m u i e e' :
    entry m (modules w) = Some i -> (forall x, u = Some x -> is_a_name x) ->
    register_module m u i e = Some e' -> scope arity w module e ->
    effect arity w module e e' []
    /\ module_types e' = module_types e /\ local_types (env_names e') = local_types (env_names e)
    /\ (u <> None -> exists u', get text_eqb m (imported_modules (env_names e')) = Some u').
  Proof.
    intros E A R S. destruct u as [u|]; cbn [register_module] in R.
    - destruct (get text_eqb u (env_imported_modules e)) eqn:G; [discriminate|]. injection R as <-. cbn.
      split; [|split; [reflexivity|split; [reflexivity|]]].
      + constructor.
        * destruct S as [M L I R R']. constructor; cbn; auto. intros m' u' H.
          change (get text_eqb m' (put text_eqb m u (imported_modules (env_names e))) = Some u') in H.
          rewrite (get_put _ text_eqb_iff) in H.
          change (is_a_name u' /\ exists i0, get text_eqb u' (put text_eqb u i (env_imported_modules e)) = Some i0 /\ entry m' (modules w) = Some i0).
          rewrite (get_put _ text_eqb_iff). destruct (text_eqb m' m) eqn:Em.
          -- injection H as <-. rewrite text_eqb_refl. apply text_eqb_eq in Em. subst. split; [auto|]. eauto.
          -- destruct (I _ _ H) as [H1 [i' [H2 H3]]]. split; [auto|]. exists i'. destruct (text_eqb u' u) eqn:Eu; [|auto].
             apply text_eqb_eq in Eu. subst. congruence.
        * constructor; [auto|]. intros m' u' H. cbn [env_names imported_module imported_modules].
          rewrite (get_put _ text_eqb_iff). destruct (text_eqb m' m); eauto.
        * auto.
      + intros _. rewrite text_eqb_refl. eauto.
    - injection R as <-. split; [constructor; auto using extends_refl|]. split; [reflexivity|]. split; [reflexivity|]. congruence.
  Qed.
  Definition done (s : statement) (e : environment) : Prop :=
    match s with
    | Import_ m u types =>
        (u <> None -> exists u', get text_eqb m (imported_modules (env_names e)) = Some u')
        /\ (forall x y, In (x, y) types -> exists i c,
              entry m (modules w) = Some i /\ entry x (mi_types i) = Some c
              /\ (tc_module c <> prelude -> exists a, get text_eqb a (module_types e) = Some c))
    | CustomType n ids importable => names_it (module_types e) n module n
    | Alias_ n ids t importable public =>
        exists c, get text_eqb n (module_types e) = Some c /\ tc_module c = module
          /\ tc_type c = t /\ tc_parameters c = map Var ids
    end.
  Lemma registered s e e' :
    sound_statement arity module s -> register w s e = Some e' -> scope arity w module e ->
    effect arity w module e e' (takes s)
    /\ ((forall u types, s = Import_ prelude u types -> types = []) ->
        tame_scope (module_types e) (local_types (env_names e)) ->
        tame_scope (module_types e') (local_types (env_names e')))
    /\ done s e'.
  Proof.
    intros A R S. destruct s as [m u types|n ids importable|n ids t importable public]; cbn [register sound_statement takes done] in *.
    - rewrite get_entry in R. destruct (entry m (modules w)) as [i|] eqn:E; [|discriminate].
      destruct (register_module m u i e) as [e1|] eqn:R1; [|discriminate].
      destruct A as [A1 A2]. destruct (module_registered _ _ _ _ _ E A1 R1 S) as [F1 [T1 [L1 U1]]].
      destruct (unqualified_types _ _ E _ _ _ A2 R (f_scope _ _ _ _ _ _ F1)) as [F2 [T2 N2]].
      split; [|split; [|split]].
      + exact (effect_trans _ _ _ _ _ _ _ _ F1 F2).
      + intros H Ht. rewrite <- T1, <- L1 in Ht. destruct (list_eq_dec N.eq_dec m prelude) as [->|Hm]; [|auto].
        rewrite (H u types eq_refl) in R. cbn in R. injection R as <-. auto.
      + intros Hu. destruct (U1 Hu) as [u' H]. eapply (x_imported _ _ (f_extends _ _ _ _ _ _ F2)); eauto.
      + intros x y H. destruct (N2 x y H) as [c [G [Ic K]]]. exists i, c. rewrite <- get_entry.
        split; [auto|]. split; [auto|]. intros Hc. eauto.
    - apply custom_type_binds in R. cbn in R. destruct R as [B X]. destruct A as [A1 [A2 A3]].
      rewrite (s_module _ _ _ _ S) in B. set (c := TypeConstructor _ _ _ _) in B.
      assert (S' : scope arity w module e').
      { eapply binds_scope; eauto.
        - exists ids. auto.
        - cbn. constructor; [now rewrite map_length|]. apply Forall_forall. intros t H. apply in_map_iff in H as [j [<- _]]. constructor.
        - intros H. exfalso. exact (Mp H).
        - intros. rewrite X in *. auto.
        - intros k. now rewrite X. }
      split; [|split].
      + constructor; [auto|eapply binds_extends; eauto|]. intros a H. eapply binds_other; eauto. intros ->. apply H. now left.
      + intros _ Ht. eapply binds_tame; eauto. apply S.
      + exists c. split; [eapply binds_get; eauto|]. reflexivity.
    - apply alias_binds in R. cbn in R. destruct R as [B [pk [m0 [x0 X]]]]. destruct A as [A1 [A2 A3]].
      rewrite (s_module _ _ _ _ S) in B. set (c := TypeConstructor _ _ _ _) in B.
      assert (S' : scope arity w module e').
      { eapply binds_scope; eauto.
        - exists ids. auto.
        - intros H. exfalso. exact (Mp H).
        - intros m n' m' x H. rewrite X, maybe_reexport_get in H. cbn [ta_type ta_parameters] in H.
          destruct t as [m1 n1 args| | |]; auto.
          destruct (_ && _) eqn:C in H; [|auto]. injection H as -> ->.
          apply andb_true_iff in C as [C C4]. apply andb_true_iff in C as [C C3]. apply andb_true_iff in C as [C1 C2].
          apply pair_eqb_eq in C4. injection C4 as -> ->. apply compare_arguments_eq in C3. right. split.
          + intros ->. destruct (sound_prelude _ _ Sw) as [p [_ [_ P]]]. rewrite P in C2. discriminate.
          + unfold is_the_type. cbn. congruence.
        - intros k H. rewrite X, maybe_reexport_get. cbn [ta_type]. destruct t; auto. destruct (_ && _); [discriminate|auto]. }
      split; [|split].
      + constructor; [auto|eapply binds_extends; eauto|]. intros a H. eapply binds_other; eauto. intros ->. apply H. now left.
      + intros _ Ht. eapply binds_tame; eauto. apply S.
      + exists c. split; [eapply binds_get; eauto|]. auto.
  Qed.
  Lemma done_stays s e e' : scope arity w module e -> done s e -> extends e e' -> done s e'.
  Proof.
    intros S D [X I]. destruct s as [m u types|n ids importable|n ids t importable public]; cbn [done] in *.
    - destruct D as [D1 D2]. split.
      + intros H. destruct (D1 H) as [u' H']. eauto.
      + intros x y H. destruct (D2 x y H) as [i [c [E1 [E2 K]]]]. exists i, c. split; [auto|]. split; [auto|].
        intros Hc. destruct (K Hc) as [a G]. eauto.
    - destruct D as [c [G H]]. exists c. split; [|auto]. apply X; [auto|]. intros E.
      destruct (ls_prelude _ _ _ (s_local _ _ _ _ S) _ _ G E) as [n' I']. destruct (the_type_one _ _ _ _ _ H I'). contradiction.
    - destruct D as [c [G [M H]]]. exists c. split; [|auto]. apply X; [auto|]. congruence.
  Qed.
  Lemma registered_all ss : forall e e',
    Forall (sound_statement arity module) ss -> register_all w ss e = Some e' -> scope arity w module e ->
    effect arity w module e e' (flat_map takes ss)
    /\ (no_prelude_imports ss -> tame_scope (module_types e) (local_types (env_names e)) ->
        tame_scope (module_types e') (local_types (env_names e')))
    /\ (forall s, In s ss -> done s e').
  Proof.
    induction ss as [|s ss IH]; intros e e' A R S; cbn [register_all] in R.
    - injection R as <-. split; [constructor; auto using extends_refl|]. split; [auto|]. intros s [].
    - destruct (register w s e) as [e1|] eqn:R1; [|discriminate]. inversion A as [|? ? A1 A2]; subst.
      destruct (registered _ _ _ A1 R1 S) as [F1 [T1 D1]].
      destruct (IH _ _ A2 R (f_scope _ _ _ _ _ _ F1)) as [F2 [T2 D2]].
      split; [exact (effect_trans _ _ _ _ _ _ _ _ F1 F2)|]. split.
      + intros H Ht. apply T2; [intros u types I; apply (H u types); now right|]. apply T1; [|auto].
        intros u types ->. apply (H u types). now left.
      + intros s' [<-|H]; [|auto]. eapply (done_stays s e1); [apply F1|exact D1|apply F2].
  Qed.
End Sound.

(** ** The beginning *)
Lemma names_folded_local l : forall ns m n a,
  In ((m, n), a) (local_types (fold_left (fun ns n => named_type_in_scope prelude n n ns) l ns)) <->
  (In n l /\ m = prelude /\ a = n) \/ (In ((m, n), a) (local_types ns) /\ ~ In a l /\ (m = prelude -> ~ In n l)).
Proof.
  induction l as [|x l IH]; intros ns m n a; cbn [fold_left In].
  - tauto.
  - rewrite IH. unfold named_type_in_scope. cbn [set_local_types local_types].
    rewrite in_bimap_insert, in_remove_by_right. split.
    + intros [[H1 [H2 H3]]|[[H|[[H1 H4] [H2 H3]]] [H5 H6]]].
      * left. auto.
      * injection H as -> -> ->. left. auto.
      * right. split; [auto|]. split; [intros [->|H]; tauto|]. intros ->. intros [->|H]; [tauto|]. apply H6; auto.
    + intros [[[->|H1] [-> ->]]|[H1 [H2 H3]]].
      * destruct (in_dec (list_eq_dec N.eq_dec) n l) as [I|I]; [left; auto|]. right. split; [left; reflexivity|]. auto.
      * left. auto.
      * right. split; [right|].
        -- split; [split; [auto|]|split].
           ++ intros ->. tauto.
           ++ intros E. injection E as <- ->. apply H3; auto.
           ++ intros ->. tauto.
        -- split; [tauto|]. intros E I. apply (H3 E). auto.
Qed.
Lemma names_folded_rest l : forall ns,
  let ns' := fold_left (fun ns n => named_type_in_scope prelude n n ns) l ns in
  imported_modules ns' = imported_modules ns /\ reexport_aliases ns' = reexport_aliases ns.
Proof.
  induction l as [|x l IH]; intros ns; cbn [fold_left]; [auto|]. destruct (IH (named_type_in_scope prelude x x ns)) as [-> ->].
  auto.
Qed.
Definition same_scope (ns ns' : names) : Prop :=
  local_types ns' = local_types ns /\ imported_modules ns' = imported_modules ns.
Section Beginning.
  Variables (w : world).
  Definition add_alias (i : interface) (m : text) (ns : names) (a : text * type_alias) : names :=
    if ta_public (snd a) then maybe_register_reexport_alias w (mi_package i) m (fst a) (snd a) ns else ns.
  Definition add_module (ns : names) (m : text * interface) : names :=
    let '(name, i) := m in
    if mi_is_internal i then ns else fold_left (add_alias i name) (mi_aliases i) ns.
  Definition reexport_by (i : interface) (xa : text * type_alias) (m n : text) : Prop :=
    type_internal w m n = true /\ mi_package i = type_package w m n
    /\ ta_public (snd xa) = true /\ ta_type (snd xa) = Named m n (ta_parameters (snd xa)).
  Lemma add_alias_get i m0 ns a k v :
    get pair_eqb k (reexport_aliases (add_alias i m0 ns a)) = Some v ->
    get pair_eqb k (reexport_aliases ns) = Some v
    \/ (v = (m0, fst a) /\ reexport_by i a (fst k) (snd k)).
  Proof.
    unfold add_alias. destruct (ta_public (snd a)) eqn:P; [|auto]. rewrite maybe_reexport_get.
    destruct (ta_type (snd a)) as [m n args| | |] eqn:T; auto.
    destruct (_ && _) eqn:C; [|auto]. intros H. injection H as <-.
    apply andb_true_iff in C as [C C4]. apply andb_true_iff in C as [C C3]. apply andb_true_iff in C as [C1 C2].
    apply pair_eqb_eq in C4. subst k. apply compare_arguments_eq in C3. apply text_eqb_eq in C1. right. split; [auto|].
    unfold reexport_by. cbn. repeat split; auto. congruence.
  Qed.
  Lemma add_alias_keeps i m0 ns a k :
    get pair_eqb k (reexport_aliases ns) <> None -> get pair_eqb k (reexport_aliases (add_alias i m0 ns a)) <> None.
  Proof.
    unfold add_alias. destruct (ta_public (snd a)); [|auto]. rewrite maybe_reexport_get. destruct (ta_type (snd a)); auto.
    destruct (_ && _); [discriminate|auto].
  Qed.
  Lemma add_alias_adds i m0 ns a m n :
    reexport_by i a m n -> get pair_eqb (m, n) (reexport_aliases (add_alias i m0 ns a)) <> None.
  Proof.
    intros [A [B [C D]]]. unfold add_alias. rewrite C, maybe_reexport_get, D, <- B, A, text_eqb_refl.
    rewrite (proj2 (compare_arguments_eq _ _) eq_refl), (proj2 (pair_eqb_eq _ _) eq_refl). discriminate.
  Qed.
  Lemma add_alias_same i m0 ns a : same_scope ns (add_alias i m0 ns a).
  Proof. unfold add_alias. destruct (ta_public (snd a)); [|split; reflexivity]. split; apply maybe_reexport_rest. Qed.
  Lemma add_aliases i m0 l : forall ns,
    let ns' := fold_left (add_alias i m0) l ns in
    same_scope ns ns'
    /\ (forall k, get pair_eqb k (reexport_aliases ns) <> None -> get pair_eqb k (reexport_aliases ns') <> None)
    /\ (forall k v, get pair_eqb k (reexport_aliases ns') = Some v ->
          get pair_eqb k (reexport_aliases ns) = Some v
          \/ exists a, In a l /\ v = (m0, fst a) /\ reexport_by i a (fst k) (snd k))
    /\ (forall a m n, In a l -> reexport_by i a m n -> get pair_eqb (m, n) (reexport_aliases ns') <> None).
  Proof.
    induction l as [|a l IH]; intros ns; cbn [fold_left].
    - repeat split; auto.
    - destruct (IH (add_alias i m0 ns a)) as [[S1 S2] [K [G A]]]. destruct (add_alias_same i m0 ns a) as [S3 S4].
      split; [split; congruence|]. split; [intros k H; apply K; now apply add_alias_keeps|]. split.
      + intros k v H. destruct (G k v H) as [H'|[a' [I H']]]; [|right; exists a'; split; [now right|auto]].
        apply add_alias_get in H'. destruct H' as [H'|H']; [auto|]. right. exists a. split; [now left|auto].
      + intros a' m n [<-|I] H; [|eapply A; eauto]. apply K. now apply add_alias_adds.
  Qed.
  Lemma add_modules l : forall ns,
    let ns' := fold_left add_module l ns in
    same_scope ns ns'
    /\ (forall k, get pair_eqb k (reexport_aliases ns) <> None -> get pair_eqb k (reexport_aliases ns') <> None)
    /\ (forall k v, get pair_eqb k (reexport_aliases ns') = Some v ->
          get pair_eqb k (reexport_aliases ns) = Some v
          \/ exists m' i a, In (m', i) l /\ mi_is_internal i = false /\ In a (mi_aliases i)
               /\ v = (m', fst a) /\ reexport_by i a (fst k) (snd k))
    /\ (forall m' i a m n, In (m', i) l -> mi_is_internal i = false -> In a (mi_aliases i) -> reexport_by i a m n ->
          get pair_eqb (m, n) (reexport_aliases ns') <> None).
  Proof.
    induction l as [|[m0 i0] l IH]; intros ns; cbn [fold_left].
    - repeat split; auto. all: try (intros m' i a m n []).
    - destruct (IH (add_module ns (m0, i0))) as [[S1 S2] [K [G A]]]. cbn [add_module] in *. destruct (mi_is_internal i0) eqn:In0.
      + split; [split; auto|]. split; [auto|]. split.
        * intros k v H. destruct (G k v H) as [H'|[m' [i [a [I H']]]]]; [auto|]. right. exists m', i, a. split; [now right|auto].
        * intros m' i a m n [E|I] H1 H2 H3; [|eapply A; eauto]. injection E as -> ->. congruence.
      + destruct (add_aliases i0 m0 (mi_aliases i0) ns) as [[S3 S4] [K' [G' A']]].
        split; [split; congruence|]. split; [auto|]. split.
        * intros k v H. destruct (G k v H) as [H'|[m' [i [a [I H']]]]].
          -- destruct (G' k v H') as [H2|[a [I [E H2]]]]; [auto|]. right. exists m0, i0, a. split; [now left|auto].
          -- right. exists m', i, a. split; [now right|auto].
        * intros m' i a m n [E|I] H1 H2 H3; [|eapply A; eauto]. injection E as -> ->. apply K. eapply A'; eauto.
  Qed.
End Beginning.
Lemma entry_in {A} k (a : A) l : NoDup (map fst l) -> (In (k, a) l <-> entry k l = Some a).
Proof.
  induction l as [|[k' a'] l IH]; cbn; intros N; [split; easy|]. inversion N; subst.
  destruct (list_eq_dec _ k k') as [->|D].
  - split; [|intros E; injection E as ->; auto]. intros [E|I]; [congruence|]. exfalso. apply H1. now apply in_map with (f := fst) in I.
  - rewrite <- IH by auto. split; [intros [E|I]; [congruence|auto]|auto].
Qed.
Lemma beginning arity w module package e : sound_world arity w -> new_environment w module package = Some e ->
  scope arity w module e /\ tame_scope (module_types e) (local_types (env_names e))
  /\ exists p, entry prelude (modules w) = Some p /\ module_types e = mi_types p.
Proof.
  intros Sw. unfold new_environment. rewrite get_entry. destruct (sound_prelude _ _ Sw) as [p [Ep [Pt Pi]]]. rewrite Ep.
  intros H. injection H as <-. unfold build_names. set (ns0 := fold_left _ _ new_names).
  change (fold_left _ (modules w) ns0) with (fold_left (add_module w) (modules w) ns0).
  destruct (add_modules w (modules w) ns0) as [[S1 S2] [K [G A]]].
  destruct (names_folded_rest (map fst (mi_types p)) new_names) as [R1 R2]. fold ns0 in R1, R2.
  assert (L : forall m n a, In ((m, n), a) (local_types ns0) <-> In n (map fst (mi_types p)) /\ m = prelude /\ a = n).
  { intros m n a. unfold ns0. rewrite names_folded_local. cbn. tauto. }
  assert (T : forall a c, get text_eqb a (mi_types p) = Some c -> is_the_type prelude a c).
  { intros a c H. apply (get_in _ text_eqb_iff) in H. eauto. }
  split; [|split; [|eauto]].
  - constructor; cbn [current_module module_types env_names env_imported_modules].
    + reflexivity.
    + rewrite S1. constructor.
      * intros a c H. apply (get_in _ text_eqb_iff) in H. destruct (sound_types _ _ Sw _ _ _ _ Ep H) as [B [_ [_ [C D]]]]. auto.
      * intros a c H _. eauto.
      * intros m n a H. apply L in H as [H [-> ->]]. apply in_map_iff in H as [[n' c] [<- H]].
        destruct (sound_types _ _ Sw _ _ _ _ Ep H) as [_ [B _]]. exists c. rewrite get_entry. eauto.
      * intros a m n [c [H1 H2]] Hm. destruct (the_type_one _ _ _ _ _ H2 (T _ _ H1)). contradiction.
    + rewrite S2, R1. cbn. discriminate.
    + intros m n m' x H. left. apply G in H. rewrite R2 in H. destruct H as [H|[m0 [i [a [I [In0 [Ia [E [B1 [B2 [B3 B4]]]]]]]]]]]; [discriminate|].
      injection E as -> ->. cbn in B1, B2, B4. split; [auto|]. exists i, (snd a). apply entry_in in I; [|apply Sw].
      repeat split; auto. now destruct a.
    + intros m n m' x [H1 [i [a [H2 [H3 [H4 [H5 [H6 H7]]]]]]]]. apply entry_in in H2; [|apply Sw].
      eapply (A m' i (x, a)); eauto. repeat split; auto.
  - cbn [module_types env_names]. rewrite S1. constructor.
    + intros a n [c [H1 H2]]. destruct (the_type_one _ _ _ _ _ H2 (T _ _ H1)) as [_ ->]. exists a. apply L.
      repeat split. apply (get_in _ text_eqb_iff) in H1. apply in_map_iff. exists (a, c). auto.
    + intros n a c H1 H2 _ a2 [c2 [H3 H4]]. apply L in H1 as [_ [_ ->]].
      now destruct (the_type_one _ _ _ _ _ H4 (T _ _ H3)).
Qed.

(** ** Names that are printed are found *)
Definition found (arity : text -> text -> nat) (e : environment) (i : name_context_information) (m n : text) : Prop :=
  match i with
  | Unqualified a => is_a_type_name a /\ exists c, get_type_constructor None a e = Some c
      /\ is_the_type m n c /\ sound_parameters (tc_parameters c) /\ length (tc_parameters c) = arity m n
  | Qualified u a => is_a_name u /\ is_a_type_name a /\ exists c, get_type_constructor (Some u) a e = Some c
      /\ is_the_type m n c /\ sound_parameters (tc_parameters c) /\ length (tc_parameters c) = arity m n
  | Unimported _ _ => False
  end.
Lemma get_none {K V} (same : K -> K -> bool) (same_eq : forall a b, same a b = true <-> a = b) k (v : V) m :
  get same k m = None -> ~ In (k, v) m.
Proof. intros G H. apply (in_get _ same_eq) in H as [v' H]. congruence. Qed.
Lemma sighted_found arity w module package ss e m n :
  sound_world arity w -> module <> prelude -> Forall (sound_statement arity module) ss ->
  analysed_types w module package ss = Some e -> in_sight w module ss m n ->
  found arity e (named_type m n Normal (env_names e)) m n.
Proof.
  intros Sw Mp A R I.
  assert (Len : forall c, is_the_type m n c -> well_formed arity (tc_type c) -> length (tc_parameters c) = arity m n)
    by (unfold is_the_type; intros c E W; rewrite E in W; now inversion W).
  unfold analysed_types in R. destruct (new_environment w module package) as [e0|] eqn:N; [|discriminate].
  destruct (beginning _ _ _ _ _ Sw N) as [S0 [T0 [p [Ep Tp]]]].
  destruct (registered_all _ _ _ Sw Mp ss _ _ A R S0) as [[S _ O] [T D]].
  assert (M : forall m', module_imported ss m' -> exists u, get text_eqb m' (imported_modules (env_names e)) = Some u).
  { intros m' [u [types H]]. apply D in H as [H _]. apply H. discriminate. }
  assert (X : forall m' x c, (exists u, get text_eqb m' (imported_modules (env_names e)) = Some u) ->
    (exists i, entry m' (modules w) = Some i /\ entry x (mi_types i) = Some c) -> tc_importable c = true ->
    is_the_type m n c ->
    found arity e (match get text_eqb m' (imported_modules (env_names e)) with Some u => Qualified u x | None => Unimported m' x end) m n).
  { intros m' x c [u Hu] [i [E1 E2]] Ic Tc. rewrite Hu. destruct (s_imported _ _ _ _ S _ _ Hu) as [Nu [i' [E3 E4]]].
    assert (i' = i) as -> by congruence. rewrite <- get_entry in E2.
    destruct (imported_constructor _ _ Sw _ _ _ _ E1 E2) as [Nx [_ [P [W _]]]].
    cbn. split; [auto|]. split; [auto|]. exists c. rewrite E3. unfold get_importable_type. rewrite E2, Ic. repeat split; auto. }
  unfold named_type.
  destruct (get pair_eqb (m, n) (local_types (env_names e))) as [a|] eqn:L.
  - apply (get_in _ pair_eqb_eq) in L. destruct (ls_local _ _ _ (s_local _ _ _ _ S) _ _ _ L) as [c [H1 H2]].
    destruct (ls_types _ _ _ (s_local _ _ _ _ S) _ _ H1) as [B1 [B2 B3]]. cbn. split; [auto|]. exists c. repeat split; auto.
  - assert (NL : m <> prelude -> ~ exists a, names_it (module_types e) a m n).
    { intros Hm [a H]. destruct (ls_complete _ _ _ (s_local _ _ _ _ S) _ _ _ H Hm) as [a' I'].
      exact (get_none _ pair_eqb_eq _ _ _ L I'). }
    assert (NP : m = prelude -> no_prelude_imports ss -> ~ exists a, names_it (module_types e) a m n).
    { intros -> Hp [a H]. destruct (ts_complete _ _ (T Hp T0) _ _ H) as [a' I'].
      exact (get_none _ pair_eqb_eq _ _ _ L I'). }
    assert (NN : (m = prelude -> no_prelude_imports ss) -> ~ exists a, names_it (module_types e) a m n).
    { intros Hp. destruct (list_eq_dec N.eq_dec m prelude); auto. }
    destruct I as [n ids importable H|x ids m n importable public H Hp|m' u types x y m n H1 H2 [i [c [H3 [H4 [H5 H6]]]]] Hp
                  |n [i [c [H3 [H4 [H5 H6]]]]] Hp Hn|m n Hi [i [c [H3 [H4 [H5 H6]]]]] Hr|m n [m1 [x1 H]] Hr].
    + exfalso. apply (NL Mp). apply D in H. cbn in H. eauto.
    + exfalso. apply (NN Hp). apply D in H. destruct H as [c [G [_ [H1 H2]]]]. exists x, c. split; [auto|].
      unfold is_the_type. congruence.
    + exfalso. apply (NN Hp). pose proof (D _ H1) as [_ H]. destruct (H _ _ H2) as [i' [c' [E1 [E2 K]]]].
      assert (i' = i) as -> by congruence. assert (c' = c) as -> by congruence.
      destruct (list_eq_dec N.eq_dec (tc_module c) prelude) as [E|E].
      * rewrite <- get_entry in E2. destruct (imported_constructor _ _ Sw _ _ _ _ E1 E2) as [_ [Mc [_ [_ P]]]].
        destruct (P E) as [n' P']. destruct (the_type_one _ _ _ _ _ H6 P') as [-> ->].
        assert (m' = prelude) as -> by congruence. pose proof (Hp eq_refl _ _ H1) as ->. destruct H2.
      * destruct (K E) as [a G]. exists a, c. auto.
    + exfalso. apply (NP eq_refl Hp). exists n, c. split; [|auto]. rewrite O by auto.
      rewrite Tp, get_entry. congruence.
    + destruct (get pair_eqb (m, n) (reexport_aliases (env_names e))) as [[m' x]|] eqn:E.
      * destruct (s_reexport _ _ _ _ S _ _ _ _ E) as [B|[B1 B2]]; [|exfalso; exact (NL B1 B2)].
        pose proof (Hr _ _ B) as Im. destruct B as [_ [i' [a [B1 [B2 [B3 [B4 [B5 B6]]]]]]]].
        destruct (sound_aliases _ _ Sw _ _ _ _ B1 B4 B5) as [c' [C1 [C2 [C3 C4]]]].
        eapply X; eauto. unfold is_the_type. congruence.
      * eapply X; eauto.
    + destruct (get pair_eqb (m, n) (reexport_aliases (env_names e))) as [[m' x]|] eqn:E.
      * destruct (s_reexport _ _ _ _ S _ _ _ _ E) as [B|[B1 B2]]; [|exfalso; exact (NL B1 B2)].
        pose proof (Hr _ _ B) as Im. destruct B as [_ [i' [a [B1 [B2 [B3 [B4 [B5 B6]]]]]]]].
        destruct (sound_aliases _ _ Sw _ _ _ _ B1 B4 B5) as [c' [C1 [C2 [C3 C4]]]].
        eapply X; eauto. unfold is_the_type. congruence.
      * exfalso. exact (s_reexported _ _ _ _ S _ _ _ _ H E).
Qed.
