(** The lists of references, that nothing panics, and the warnings. *)
From Coq Require Import NArith List Bool Arith Lia Permutation.
From Verif Require Import Text TextProofs Reference ReferenceSpec ReferenceMarkProofs.
Import ListNotations.
Local Open Scope nat_scope.
Local Open Scope list_scope.

(** ** References *)

Definition notes (t : tracker) :=
  (value_references t, type_references t, module_references t, label_references t, label_definitions t).

Lemma notes_shadow e i t : notes (create_node_and_maybe_shadow e i t) = notes t.
Proof.
  unfold create_node_and_maybe_shadow. destruct (bimap_insert _ _ _) as [o b].
  destruct o as [|e' j|e' j|e' j|[e' j] r]; [reflexivity|..]; destruct (get _ _ _); reflexivity.
Qed.
Lemma notes_create n ly t : notes (snd (create_node n ly t)) = notes t.
Proof. unfold create_node. cbn [add_node snd]. now rewrite notes_shadow. Qed.
Lemma notes_get_or_create n ly t : notes (snd (get_or_create_node n ly t)) = notes t.
Proof. unfold get_or_create_node. destruct (by_left _ _); reflexivity. Qed.
Lemma notes_add_edge a b t t' : add_edge a b t = Some t' -> notes t' = notes t.
Proof. unfold add_edge. destruct (_ && _); [|discriminate]. intros H; inversion H. reflexivity. Qed.
Lemma notes_reference n ly t t' : add_reference_edge n ly t = Some t' -> notes t' = notes t.
Proof.
  unfold add_reference_edge. pose proof (notes_get_or_create n ly t) as G.
  destruct (get_or_create_node n ly t) as [i t1]. intros H. apply notes_add_edge in H. cbn in G. congruence.
Qed.
Lemma notes_by_name n t t' : register_module_reference_by_module_name n t = Some t' -> notes t' = notes t.
Proof.
  unfold register_module_reference_by_module_name. destruct (get _ _ _).
  - apply notes_add_edge.
  - intros H; inversion H. reflexivity.
Qed.
Lemma notes_imported k t t' : register_module_reference_from_imported_entity k t = Some t' -> notes t' = notes t.
Proof.
  destruct k; cbn [register_module_reference_from_imported_entity];
    try (intros H; inversion H; reflexivity); apply notes_by_name.
Qed.
Lemma notes_publish e p t : notes (publish e p t) = notes t. Proof. destruct p; reflexivity. Qed.
Lemma notes_inform e i t : notes (inform e i t) = notes t. Proof. reflexivity. Qed.

Lemma notes_register_value n k w p t t' : register_value n k w p t = Some t' -> notes t' = notes t.
Proof.
  unfold register_value. pose proof (notes_create n LValue t) as C.
  destruct (create_node n LValue t) as [i t1]. cbn [snd] in C.
  destruct (register_module_reference_from_imported_entity k (set_current i t1)) as [t2|] eqn:E; [|discriminate].
  intros H; inversion H. rewrite notes_inform, notes_publish, (notes_imported _ _ _ E). exact C.
Qed.
Lemma notes_register_type n k w p t t' : register_type n k w p t = Some t' -> notes t' = notes t.
Proof.
  unfold register_type. pose proof (notes_create n LType t) as C.
  destruct (create_node n LType t) as [i t1]. cbn [snd] in C.
  destruct (register_module_reference_from_imported_entity k (set_current i t1)) as [t2|] eqn:E; [|discriminate].
  intros H; inversion H. rewrite notes_inform, notes_publish, (notes_imported _ _ _ E). exact C.
Qed.
Lemma notes_register_constant n w p t : notes (register_constant n w p t) = notes t.
Proof. unfold register_constant. now rewrite notes_inform, notes_publish, notes_shadow. Qed.

(** What a call adds to the lists. *)
Definition noted_module (c : call) : option (text * module_name_reference) :=
  match c with
  | RegisterModule u m w mw => Some (m, ModuleImport mw (end_ w))
  | RegisterAliasedModule u m aw w mw => Some (m, AliasedImport mw aw u)
  | RegisterValueReference m _ _ _ (Qualified a aw) | RegisterTypeReference m _ _ _ (Qualified a aw) =>
      Some (m, module_select m a aw)
  | RegisterModuleNameReference m r => Some (m, r)
  | _ => None
  end.
Definition add_notes (c : call) (ns : _) :=
  let '(vs, ts, ms, lr, ld) := ns in
  (match c with RegisterValueReference m n _ w k => push pair_eqb (m, n) (Reference w k) vs | _ => vs end,
   match c with RegisterTypeReference m n _ w k => push pair_eqb (m, n) (Reference w k) ts | _ => ts end,
   match noted_module c with Some (m, r) => push text_eqb m r ms | None => ms end,
   match c with
   | RegisterLabelReference ty f w s => push label_eqb (RecordLabel (fst ty) (snd ty) f) (LabelReference w s) lr
   | _ => lr end,
   match c with
   | RegisterLabelDefinition ty f w v => push label_eqb (RecordLabel (fst ty) (snd ty) f) (LabelDefinition w v) ld
   | _ => ld end).

Lemma notes_module u m w mw al t :
  notes (register_module u m w mw al t) =
  (value_references t, type_references t,
   push text_eqb m (match al with Some al => AliasedImport mw al u | None => ModuleImport mw (end_ w) end)
     (module_references t), label_references t, label_definitions t).
Proof.
  unfold register_module. pose proof (notes_create u LModule t) as C.
  destruct (create_node u LModule t) as [i t1]. cbn [snd] in C. unfold notes in *. inversion C.
  cbn. rewrite H0, H1, H2, H3, H4. reflexivity.
Qed.

Lemma notes_perform c t t' : perform c t = Some t' -> notes t' = add_notes c (notes t).
Proof.
  destruct c; cbn [perform].
  - intros H; inversion H. reflexivity.
  - intros H; inversion H. rewrite notes_register_constant. reflexivity.
  - intros H. apply notes_register_value in H. rewrite H. reflexivity.
  - intros H; inversion H. unfold set_current_node. pose proof (notes_get_or_create n LValue t) as C.
    destruct (get_or_create_node n LValue t) as [i t1]. cbn [snd] in C.
    transitivity (notes t1); [reflexivity|]. rewrite C. reflexivity.
  - intros H. apply notes_register_type in H. rewrite H. reflexivity.
  - unfold register_aliased_module.
    pose proof (notes_module used_name module_name import_location module_location (Some alias_location) t) as M.
    set (t1 := register_module _ _ _ _ _ t) in *. clearbody t1.
    pose proof (notes_create used_name LModule t1) as C. destruct (create_node used_name LModule t1) as [i t2].
    cbn [snd] in C. destruct (register_module_reference_by_module_name _ _) as [t3|] eqn:E; [|discriminate].
    intros H; inversion H. rewrite notes_inform. apply notes_by_name in E. rewrite E.
    transitivity (notes t2); [reflexivity|]. rewrite C, M. reflexivity.
  - intros H; inversion H. rewrite notes_module. reflexivity.
  - unfold register_value_reference. destruct k.
    1,3,4: intros H; inversion H; reflexivity.
    all: destruct (add_reference_edge _ _ t) as [t1|] eqn:E; [|discriminate];
      apply notes_reference in E; intros H; inversion H; unfold notes in *; cbn; inversion E as [[A B C D F]];
      rewrite A; reflexivity.
  - unfold register_type_reference, register_type_reference_in_call_graph. destruct k.
    1,3,4: intros H; inversion H; reflexivity.
    all: destruct (add_reference_edge _ _ t) as [t1|] eqn:E; [|discriminate];
      apply notes_reference in E; intros H; inversion H; unfold notes in *; cbn; inversion E as [[A B C D F]];
      rewrite B; reflexivity.
  - intros H; inversion H. reflexivity.
  - intros H; inversion H. reflexivity.
  - intros H; inversion H. reflexivity.
  - intros H. apply notes_reference in H. rewrite H. reflexivity.
  - intros H. apply notes_reference in H. rewrite H. reflexivity.
Qed.
Lemma notes_all cs : forall t t', perform_all cs t = Some t' ->
  notes t' = fold_left (fun ns c => add_notes c ns) cs (notes t).
Proof.
  induction cs as [|c cs IH]; cbn; intros t t' H; [inversion H; reflexivity|].
  destruct (perform c t) as [t1|] eqn:E; [|discriminate].
  apply notes_perform in E. apply IH in H. now rewrite H, E.
Qed.

Definition stored {A} (l : list A) : option (list A) := match l with [] => None | _ => Some l end.
Lemma get_push {K V} (same : K -> K -> bool) (same_eq : forall a b, same a b = true <-> a = b)
  k (v : V) m k' :
  get same k' (push same k v m)
  = if same k k' then Some (match get same k m with Some l => l | None => [] end ++ [v]) else get same k' m.
Proof.
  unfold push. rewrite (get_put same same_eq). destruct (same k k') eqn:E; [|reflexivity].
  now destruct (get same k m).
Qed.
Lemma push_stored {K V} (same : K -> K -> bool) (same_eq : forall a b, same a b = true <-> a = b)
  k (v : V) m k' l :
  get same k' m = stored l ->
  get same k' (push same k v m) = stored (l ++ if same k k' then [v] else []).
Proof.
  intros H. rewrite get_push by exact same_eq. destruct (same k k') eqn:E.
  - apply same_eq in E as ->. rewrite H. destruct l; reflexivity.
  - now rewrite app_nil_r.
Qed.

Lemma folded_notes cs : forall vs ts ms lr ld m n ty f L1 L2 L4 L5,
  get pair_eqb (m, n) vs = stored L1 -> get pair_eqb (m, n) ts = stored L2 ->
  get label_eqb (RecordLabel (fst ty) (snd ty) f) lr = stored L4 ->
  get label_eqb (RecordLabel (fst ty) (snd ty) f) ld = stored L5 ->
  let '(vs', ts', ms', lr', ld') := fold_left (fun ns c => add_notes c ns) cs (vs, ts, ms, lr, ld) in
  get pair_eqb (m, n) vs' = stored (L1 ++ flat_map (value_references_to m n) cs)
  /\ get pair_eqb (m, n) ts' = stored (L2 ++ flat_map (type_references_to m n) cs)
  /\ get label_eqb (RecordLabel (fst ty) (snd ty) f) lr' = stored (L4 ++ flat_map (label_references_to ty f) cs)
  /\ get label_eqb (RecordLabel (fst ty) (snd ty) f) ld' = stored (L5 ++ flat_map (label_definitions_of ty f) cs).
Proof.
  induction cs as [|c cs IH]; intros vs ts ms lr ld m n ty f L1 L2 L4 L5 H1 H2 H4 H5.
  - cbn. rewrite !app_nil_r. auto.
  - cbn [fold_left flat_map]. cbn [add_notes]. rewrite !app_assoc. apply IH.
    + destruct c; cbn [value_references_to]; rewrite ?app_nil_r; auto.
      exact (push_stored pair_eqb pair_eqb_eq _ _ _ _ _ H1).
    + destruct c; cbn [type_references_to]; rewrite ?app_nil_r; auto.
      exact (push_stored pair_eqb pair_eqb_eq _ _ _ _ _ H2).
    + destruct c; cbn [label_references_to]; rewrite ?app_nil_r; auto. destruct type as [a b].
      exact (push_stored label_eqb label_eqb_eq _ _ _ _ _ H4).
    + destruct c; cbn [label_definitions_of]; rewrite ?app_nil_r; auto. destruct type as [a b].
      exact (push_stored label_eqb label_eqb_eq _ _ _ _ _ H5).
Qed.

Theorem references_noted cs t : analysed cs = Some t -> forall m n ty f,
  get pair_eqb (m, n) (value_references t) = stored (flat_map (value_references_to m n) cs)
  /\ get pair_eqb (m, n) (type_references t) = stored (flat_map (type_references_to m n) cs)
  /\ get label_eqb (RecordLabel (fst ty) (snd ty) f) (label_references t)
     = stored (flat_map (label_references_to ty f) cs)
  /\ get label_eqb (RecordLabel (fst ty) (snd ty) f) (label_definitions t)
     = stored (flat_map (label_definitions_of ty f) cs).
Proof.
  intros H m n ty f. apply notes_all in H.
  pose proof (folded_notes cs [] [] [] [] [] m n ty f [] [] [] [] eq_refl eq_refl eq_refl eq_refl) as F.
  change (notes new) with (@nil (text * text * list reference), @nil (text * text * list reference),
    @nil (text * list module_name_reference), @nil (record_label * list label_reference),
    @nil (record_label * list label_definition)) in H.
  rewrite <- H in F. exact F.
Qed.

Lemma stored_some {A} (l : list A) : (match stored l with Some _ => true | None => false end) = true <-> l <> [].
Proof. destruct l; cbn; split; congruence. Qed.
Lemma flat_map_nonempty {A B} (f : A -> list B) l : flat_map f l <> [] <-> exists x, In x l /\ f x <> [].
Proof.
  induction l as [|x l IH]; cbn; [split; [congruence|intros (x & [] & _)]|]. split.
  - intros H. destruct (f x) as [|y ys] eqn:E.
    + apply IH in H as (z & I & N). eauto.
    + exists x. split; [now left|]. rewrite E. discriminate.
  - intros (z & [->|I] & N); intros H; apply app_eq_nil in H as [H1 H2]; [congruence|].
    assert (X : flat_map f l <> []) by (apply IH; eauto). congruence.
Qed.
Lemma recorded_values cs t : analysed cs = Some t -> forall m n,
  contains_key (m, n) (value_references t) = true <-> exists r w k, In (RegisterValueReference m n r w k) cs.
Proof.
  intros H m n. destruct (references_noted cs t H m n ([], []) []) as [E _].
  unfold contains_key. rewrite E, stored_some, flat_map_nonempty. split.
  - intros (c & I & N). destruct c; cbn in N; try congruence.
    destruct (text_eqb module m && text_eqb n0 n) eqn:Q; [|congruence].
    apply andb_true_iff in Q as [Q1 Q2]. apply text_eqb_eq in Q1 as ->, Q2 as ->. eauto.
  - intros (r & w & k & I). eexists. split; [exact I|]. cbn. rewrite !text_eqb_refl. discriminate.
Qed.
Lemma recorded_types cs t : analysed cs = Some t -> forall m n,
  contains_key (m, n) (type_references t) = true <-> exists r w k, In (RegisterTypeReference m n r w k) cs.
Proof.
  intros H m n. destruct (references_noted cs t H m n ([], []) []) as [_ [E _]].
  unfold contains_key. rewrite E, stored_some, flat_map_nonempty. split.
  - intros (c & I & N). destruct c; cbn in N; try congruence.
    destruct (text_eqb module m && text_eqb n0 n) eqn:Q; [|congruence].
    apply andb_true_iff in Q as [Q1 Q2]. apply text_eqb_eq in Q1 as ->, Q2 as ->. eauto.
  - intros (r & w & k & I). eexists. split; [exact I|]. cbn. rewrite !text_eqb_refl. discriminate.
Qed.

(** The last segment. *)
Lemma slash_in m : existsb (N.eqb 47) m = true <-> In 47%N m.
Proof.
  rewrite existsb_exists. split; [intros (x & I & E); apply N.eqb_eq in E; now subst|].
  intros I. exists 47%N. split; [exact I|apply N.eqb_refl].
Qed.
Lemma last_segment_spec m : ends_in m (last_segment m).
Proof.
  induction m as [|c m IH].
  - split; [intros []|now left].
  - cbn [last_segment]. destruct (existsb (N.eqb 47) (c :: m)) eqn:E.
    + destruct IH as [N [IH|[b IH]]]; split; auto; right.
      * apply slash_in in E. destruct E as [<-|E]; [|rewrite IH in E; contradiction].
        exists []. cbn. now rewrite <- IH.
      * exists (c :: b). cbn. now rewrite <- IH.
    + split; [|now left]. intros I. apply slash_in in I. congruence.
Qed.
Lemma ends_in_unique m a b : ends_in m a -> ends_in m b -> a = b.
Proof.
  intros [NA HA] [NB HB].
  assert (U : forall p q a b : text, ~ In 47%N a -> ~ In 47%N b -> p ++ 47%N :: a = q ++ 47%N :: b -> a = b).
  { clear. induction p as [|x p IH]; intros q a b NA NB E; destruct q as [|y q]; cbn in E; inversion E; subst; auto.
    - elim NA. apply in_or_app. right. now left.
    - elim NB. apply in_or_app. right. now left.
    - eauto. }
  destruct HA as [->|[p ->]]; destruct HB as [HB|[q HB]]; auto.
  - elim NA. rewrite HB. apply in_or_app. right. now left.
  - elim NB. rewrite <- HB. apply in_or_app. right. now left.
  - eapply U; eauto.
Qed.
Lemma module_select_spec m a w :
  (module_select m a w = ModuleSelect w /\ ends_in m a)
  \/ (module_select m a w = AliasedModuleSelect w /\ ~ ends_in m a).
Proof.
  unfold module_select. destruct (text_eqb (last_segment m) a) eqn:E.
  - left. split; [reflexivity|]. apply text_eqb_eq in E as <-. apply last_segment_spec.
  - right. split; [reflexivity|]. intros H.
    rewrite (ends_in_unique _ _ _ (last_segment_spec m) H), text_eqb_refl in E. discriminate.
Qed.

Lemma noted_writes m c r : noted_module c = Some (m, r) -> writes_module m c r.
Proof.
  destruct c; cbn; try discriminate; intros H.
  - inversion H; subst. constructor.
  - inversion H; subst. constructor.
  - destruct k; try discriminate. inversion H; subst.
    destruct (module_select_spec m module_alias module_location) as [[-> E]|[-> E]]; now constructor.
  - destruct k; try discriminate. inversion H; subst.
    destruct (module_select_spec m module_alias module_location) as [[-> E]|[-> E]]; now constructor.
  - inversion H; subst. constructor.
Qed.
Lemma writes_noted m c r : writes_module m c r -> exists r', noted_module c = Some (m, r').
Proof. intros H; inversion H; subst; cbn; eauto. Qed.

Lemma folded_modules cs : forall vs ts ms lr ld m L,
  get text_eqb m ms = stored L ->
  let '(_, _, ms', _, _) := fold_left (fun ns c => add_notes c ns) cs (vs, ts, ms, lr, ld) in
  exists L', told (writes_module m) cs L' /\ get text_eqb m ms' = stored (L ++ L').
Proof.
  induction cs as [|c cs IH]; intros vs ts ms lr ld m L H.
  - cbn. exists []. rewrite app_nil_r. split; [constructor|exact H].
  - cbn [fold_left]. cbn [add_notes].
    set (ms1 := match noted_module c with Some (m, r) => push text_eqb m r ms | None => ms end).
    assert (C : (exists r, writes_module m c r /\ get text_eqb m ms1 = stored (L ++ [r]))
                \/ ((forall r, ~ writes_module m c r) /\ get text_eqb m ms1 = stored L)).
    { unfold ms1. destruct (noted_module c) as [[m' r]|] eqn:E.
      - pose proof (push_stored text_eqb text_eqb_eq m' r ms m L H) as P.
        destruct (text_eqb m' m) eqn:Q.
        + apply text_eqb_eq in Q as ->. left. exists r. split; [now apply noted_writes|exact P].
        + right. rewrite app_nil_r in P. split; [|exact P]. intros r' Wr. apply writes_noted in Wr as (r'' & Wr).
          rewrite E in Wr. inversion Wr; subst. now rewrite text_eqb_refl in Q.
      - right. split; [|exact H]. intros r' Wr. apply writes_noted in Wr as (r'' & Wr). congruence. }
    destruct C as [(r & Wr & G)|[N G]].
    + match goal with |- context [fold_left _ cs (?a, ?b, ms1, ?d, ?e)] =>
        pose proof (IH a b ms1 d e m (L ++ [r]) G) as I;
        destruct (fold_left (fun ns c => add_notes c ns) cs (a, b, ms1, d, e)) as [[[[? ?] ms'] ?] ?] end.
      destruct I as (L' & TL & E). exists (r :: L'). split; [now constructor|].
      rewrite <- app_assoc in E. exact E.
    + match goal with |- context [fold_left _ cs (?a, ?b, ms1, ?d, ?e)] =>
        pose proof (IH a b ms1 d e m L G) as I;
        destruct (fold_left (fun ns c => add_notes c ns) cs (a, b, ms1, d, e)) as [[[[? ?] ms'] ?] ?] end.
      destruct I as (L' & TL & E). exists L'. split; [now constructor|exact E].
Qed.
Theorem modules_noted cs t : analysed cs = Some t -> forall m,
  exists L, told (writes_module m) cs L /\ get text_eqb m (module_references t) = stored L.
Proof.
  intros H m. apply notes_all in H.
  pose proof (folded_modules cs [] [] [] [] [] m [] eq_refl) as F.
  change (notes new) with (@nil (text * text * list reference), @nil (text * text * list reference),
    @nil (text * list module_name_reference), @nil (record_label * list label_reference),
    @nil (record_label * list label_definition)) in H.
  rewrite <- H in F. exact F.
Qed.

(** ** Nothing panics *)

Record sane (t : tracker) : Prop := {
  n_current : current_node t < nodes t \/ (nodes t = 0 /\ current_node t = 0);
  n_entities : forall e i, In (e, i) (entities t) -> i < nodes t;
  n_modules : forall m i, In (m, i) (module_name_to_node t) -> i < nodes t
}.
Lemma insert_incl e n b x i : In (x, i) (snd (bimap_insert e n b)) -> (x, i) = (e, n) \/ In (x, i) b.
Proof.
  unfold bimap_insert. cbn. intros [H|H]; [left; auto|right].
  unfold without_right, without in H. apply filter_In in H as [H _]. now apply filter_In in H as [H _].
Qed.
Lemma by_left_some e b i : by_left e b = Some i -> In (e, i) b.
Proof. apply get_some_in, entity_eqb_eq. Qed.

Lemma sane_shadow e index t :
  sane t -> index < nodes t -> sane (create_node_and_maybe_shadow e index t).
Proof.
  intros N LT. unfold create_node_and_maybe_shadow.
  assert (I : forall x i, In (x, i) (snd (bimap_insert e index (entities t))) -> i < nodes t).
  { intros x i H. apply insert_incl in H as [H|H]; [inversion H; subst; exact LT|eapply n_entities; eauto]. }
  assert (O : forall e' i, fst (bimap_insert e index (entities t)) = OLeft e' i
      \/ fst (bimap_insert e index (entities t)) = ORight e' i
      \/ fst (bimap_insert e index (entities t)) = OPair e' i
      \/ (exists r, fst (bimap_insert e index (entities t)) = OBoth (e', i) r) -> i < nodes t).
  { intros e' i. unfold bimap_insert. cbn [fst].
    destruct (by_left e (entities t)) as [n'|] eqn:BL.
    - apply by_left_some in BL. pose proof (n_entities t N _ _ BL) as L.
      destruct (by_right index (without entity_eqb e (entities t))) as [e2|];
        [|destruct (Nat.eqb n' index)]; intros [H|[H|[H|[r H]]]]; inversion H; subst; exact L.
    - destruct (by_right index (without entity_eqb e (entities t))) as [e2|];
        intros [H|[H|[H|[r H]]]]; inversion H; subst; exact LT. }
  destruct (bimap_insert e index (entities t)) as [o b]. cbn [fst snd] in *.
  assert (B : sane (set_entities b t)) by (destruct N; split; cbn; auto).
  assert (K : forall e' i, i < nodes t -> sane (match get entity_eqb e' (entity_information (set_entities b t)) with
      | Some info =>
          let shadowed := Entity (name e') LShadowed in
          let t := set_information (put entity_eqb shadowed info (entity_information (set_entities b t))) (set_entities b t) in
          set_entities (snd (bimap_insert shadowed i (entities t))) t
      | None => set_entities b t end)).
  { intros e' i Li. destruct (get _ _ _); [|exact B]. destruct N. split; cbn [nodes current_node module_name_to_node entities set_entities set_information]; auto.
    intros x j H. apply insert_incl in H as [H|H]; [inversion H; subst; exact Li|eauto]. }
  destruct o as [|e' i|e' i|e' i|[e' i] r]; [exact B|apply K..]; eapply O; eauto 6.
Qed.
Lemma sane_node t : sane t -> sane (snd (add_node t)) /\ fst (add_node t) < nodes (snd (add_node t)).
Proof.
  intros N. cbn. split; [|lia]. split; cbn.
  - destruct (n_current t N) as [H|[H1 H2]]; left; lia.
  - intros e i H. apply (n_entities t N) in H. lia.
  - intros m i H. apply (n_modules t N) in H. lia.
Qed.
Lemma shadow_nodes e i t : nodes (create_node_and_maybe_shadow e i t) = nodes t.
Proof.
  unfold create_node_and_maybe_shadow. destruct (bimap_insert _ _ _) as [o b].
  destruct o as [|e' j|e' j|e' j|[e' j] r]; [reflexivity|..]; destruct (get _ _ _); reflexivity.
Qed.
Lemma sane_create n ly t :
  sane t -> sane (snd (create_node n ly t)) /\ fst (create_node n ly t) < nodes (snd (create_node n ly t)).
Proof.
  intros N. destruct (sane_node t N) as [A B]. unfold create_node.
  destruct (add_node t) as [i t1]. cbn [fst snd] in *. split; [now apply sane_shadow|].
  now rewrite shadow_nodes.
Qed.
Lemma sane_get_or_create n ly t :
  sane t -> let r := get_or_create_node n ly t in
  sane (snd r) /\ fst r < nodes (snd r) /\ current_node (snd r) < nodes (snd r).
Proof.
  intros N. cbn zeta. unfold get_or_create_node.
  destruct (by_left (Entity n ly) (entities t)) as [i|] eqn:E; cbn [fst snd].
  - apply by_left_some in E. pose proof (n_entities t N _ _ E) as L. split; [exact N|]. split; [exact L|].
    destruct (n_current t N) as [H|[H _]]; [exact H|lia].
  - destruct (sane_node t N) as [A B]. destruct (add_node t) as [i t1] eqn:AN. cbn [fst snd] in *.
    unfold add_node in AN. inversion AN; subst i t1. clear AN. cbn [nodes set_graph entities set_entities current_node] in *.
    split; [|split; [exact B|]].
    + destruct A. split; cbn [nodes current_node module_name_to_node entities set_entities set_graph] in *; auto.
      intros x j H. apply insert_incl in H as [H|H]; [inversion H; subst; exact B|eauto].
    + destruct (n_current t N) as [H|[H1 H2]]; lia.
Qed.
Lemma sane_current i t : sane t -> i < nodes t -> sane (set_current i t).
Proof. intros [A B C] L. split; cbn; auto. Qed.
Lemma sane_edge a b t : sane t -> a < nodes t -> b < nodes t -> exists t', add_edge a b t = Some t' /\ sane t' /\ nodes t' = nodes t.
Proof.
  intros N A B. unfold add_edge. rewrite (proj2 (Nat.ltb_lt _ _) A), (proj2 (Nat.ltb_lt _ _) B). cbn [andb].
  eexists. split; [reflexivity|]. destruct N. split; [split; cbn; auto|reflexivity].
Qed.
Lemma sane_reference n ly t : sane t -> exists t', add_reference_edge n ly t = Some t' /\ sane t'.
Proof.
  intros N. unfold add_reference_edge. destruct (sane_get_or_create n ly t N) as (A & B & C).
  destruct (get_or_create_node n ly t) as [i t1]. cbn [fst snd] in *.
  destruct (sane_edge (current_node t1) i t1 A C B) as (t' & E & S & _). eauto.
Qed.
Lemma sane_by_name n t : sane t -> current_node t < nodes t ->
  exists t', register_module_reference_by_module_name n t = Some t' /\ sane t'.
Proof.
  intros N C. unfold register_module_reference_by_module_name.
  destruct (get text_eqb n (module_name_to_node t)) as [j|] eqn:E; [|eauto].
  apply get_some_in in E; [|apply text_eqb_eq].
  destruct (sane_edge _ j t N C (n_modules t N _ _ E)) as (t' & E' & S & _). eauto.
Qed.
Lemma sane_imported k t : sane t -> current_node t < nodes t ->
  exists t', register_module_reference_from_imported_entity k t = Some t' /\ sane t'.
Proof.
  intros N C. destruct k; cbn [register_module_reference_from_imported_entity]; eauto; now apply sane_by_name.
Qed.
Lemma sane_publish e p t : sane t -> sane (publish e p t).
Proof. intros [A B C]. destruct p; split; cbn; auto. Qed.
Lemma sane_inform e i t : sane t -> sane (inform e i t).
Proof. intros [A B C]. split; cbn; auto. Qed.
Lemma sane_module u m w mw al t : sane t -> sane (register_module u m w mw al t).
Proof.
  intros N. unfold register_module. destruct (sane_create u LModule t N) as [A B].
  destruct (create_node u LModule t) as [i t1]. cbn [fst snd] in *.
  apply sane_inform. destruct (sane_current i t1 A B) as [C D E]. split; cbn [nodes current_node entities module_name_to_node register_module_name_reference set_module_references set_module_nodes set_current] in *; auto.
  intros m' j [H|H]; [inversion H; subst; exact B|]. unfold without in H. apply filter_In in H as [H _]. eauto.
Qed.

Lemma nodes_create n ly t : nodes (snd (create_node n ly t)) = S (nodes t).
Proof. unfold create_node. cbn [add_node snd]. now rewrite shadow_nodes. Qed.
Lemma nodes_get_or_create n ly t : nodes t <= nodes (snd (get_or_create_node n ly t)).
Proof. unfold get_or_create_node. destruct (by_left _ _); cbn; lia. Qed.
Lemma nodes_add_edge a b t t' : add_edge a b t = Some t' -> nodes t' = nodes t.
Proof. unfold add_edge. destruct (_ && _); [|discriminate]. intros H; inversion H. reflexivity. Qed.
Lemma nodes_reference n ly t t' : add_reference_edge n ly t = Some t' -> nodes t <= nodes t'.
Proof.
  unfold add_reference_edge. pose proof (nodes_get_or_create n ly t) as G.
  destruct (get_or_create_node n ly t) as [i t1]. intros H. apply nodes_add_edge in H. cbn in G. lia.
Qed.
Lemma nodes_by_name n t t' : register_module_reference_by_module_name n t = Some t' -> nodes t' = nodes t.
Proof.
  unfold register_module_reference_by_module_name. destruct (get _ _ _).
  - apply nodes_add_edge.
  - intros H; inversion H. reflexivity.
Qed.
Lemma nodes_imported k t t' : register_module_reference_from_imported_entity k t = Some t' -> nodes t' = nodes t.
Proof.
  destruct k; cbn [register_module_reference_from_imported_entity];
    try (intros H; inversion H; reflexivity); apply nodes_by_name.
Qed.
Lemma nodes_publish e p t : nodes (publish e p t) = nodes t. Proof. destruct p; reflexivity. Qed.
Lemma nodes_module u m w mw al t : nodes (register_module u m w mw al t) = S (nodes t).
Proof.
  unfold register_module. pose proof (nodes_create u LModule t) as C.
  destruct (create_node u LModule t) as [i t1]. exact C.
Qed.
Lemma nodes_perform c t t' : perform c t = Some t' -> nodes t <= nodes t'.
Proof.
  destruct c; cbn [perform].
  - intros H; inversion H. cbn. lia.
  - intros H; inversion H. unfold register_constant, inform. cbn [nodes set_information]. rewrite nodes_publish, shadow_nodes. lia.
  - unfold register_value. pose proof (nodes_create n LValue t) as C.
    destruct (create_node n LValue t) as [i t1]. cbn [snd] in C.
    destruct (register_module_reference_from_imported_entity _ _) as [t2|] eqn:E; [|discriminate].
    intros H; inversion H. apply nodes_imported in E. cbn in *. rewrite nodes_publish. lia.
  - intros H; inversion H. unfold set_current_node. pose proof (nodes_get_or_create n LValue t) as C.
    destruct (get_or_create_node n LValue t) as [i t1]. exact C.
  - unfold register_type. pose proof (nodes_create n LType t) as C.
    destruct (create_node n LType t) as [i t1]. cbn [snd] in C.
    destruct (register_module_reference_from_imported_entity _ _) as [t2|] eqn:E; [|discriminate].
    intros H; inversion H. apply nodes_imported in E. cbn in *. rewrite nodes_publish. lia.
  - unfold register_aliased_module.
    pose proof (nodes_module used_name module_name import_location module_location (Some alias_location) t) as M.
    set (t1 := register_module _ _ _ _ _ t) in *. clearbody t1.
    pose proof (nodes_create used_name LModule t1) as C. destruct (create_node used_name LModule t1) as [i t2].
    cbn [snd] in C. destruct (register_module_reference_by_module_name _ _) as [t3|] eqn:E; [|discriminate].
    intros H; inversion H. apply nodes_by_name in E. cbn in *. lia.
  - intros H; inversion H. rewrite nodes_module. lia.
  - unfold register_value_reference. destruct k.
    1,3,4: intros H; inversion H; cbn; lia.
    all: destruct (add_reference_edge _ _ t) as [t1|] eqn:E; [|discriminate];
      apply nodes_reference in E; intros H; inversion H; exact E.
  - unfold register_type_reference, register_type_reference_in_call_graph. destruct k.
    1,3,4: intros H; inversion H; cbn; lia.
    all: destruct (add_reference_edge _ _ t) as [t1|] eqn:E; [|discriminate];
      apply nodes_reference in E; intros H; inversion H; exact E.
  - intros H; inversion H. cbn. lia.
  - intros H; inversion H. cbn. lia.
  - intros H; inversion H. cbn. lia.
  - apply nodes_reference.
  - apply nodes_reference.
Qed.

Lemma sane_perform c t :
  sane t -> (forall n w p, c = RegisterConstant n w p -> 0 < nodes t) ->
  exists t', perform c t = Some t' /\ sane t'.
Proof.
  intros N P. destruct c; cbn [perform].
  - eexists. split; [reflexivity|]. unfold begin_constant. destruct (sane_node t N) as [A B].
    destruct (add_node t) as [i t1]. now apply sane_current.
  - eexists. split; [reflexivity|]. unfold register_constant.
    specialize (P _ _ _ eq_refl).
    destruct (n_current t N) as [H|[H1 H2]]; [|lia].
    apply sane_inform, sane_publish, sane_shadow; auto.
  - unfold register_value. destruct (sane_create n LValue t N) as [A B].
    destruct (create_node n LValue t) as [i t1]. cbn [fst snd] in *.
    destruct (sane_imported k (set_current i t1) (sane_current _ _ A B) B) as (t2 & -> & S).
    eexists. split; [reflexivity|]. now apply sane_inform, sane_publish.
  - eexists. split; [reflexivity|]. unfold set_current_node.
    destruct (sane_get_or_create n LValue t N) as (A & B & _).
    destruct (get_or_create_node n LValue t) as [i t1]. now apply sane_current.
  - unfold register_type. destruct (sane_create n LType t N) as [A B].
    destruct (create_node n LType t) as [i t1]. cbn [fst snd] in *.
    destruct (sane_imported k (set_current i t1) (sane_current _ _ A B) B) as (t2 & -> & S).
    eexists. split; [reflexivity|]. now apply sane_inform, sane_publish.
  - unfold register_aliased_module.
    pose proof (sane_module used_name module_name import_location module_location (Some alias_location) t N) as M.
    set (t1 := register_module _ _ _ _ _ t) in *. clearbody t1.
    destruct (sane_create used_name LModule t1 M) as [A B]. destruct (create_node used_name LModule t1) as [i t2].
    cbn [fst snd] in *.
    destruct (sane_by_name module_name (set_current i t2) (sane_current _ _ A B) B) as (t3 & -> & S).
    eexists. split; [reflexivity|]. now apply sane_inform.
  - eexists. split; [reflexivity|]. now apply sane_module.
  - unfold register_value_reference. destruct k.
    1,3,4: eexists; split; [reflexivity|destruct N; split; cbn; auto].
    all: destruct (sane_reference referenced_name LValue t N) as (t1 & E & S) ||
      destruct (sane_reference n LValue t N) as (t1 & E & S);
      rewrite E; eexists; split; [reflexivity|destruct S; split; cbn; auto].
  - unfold register_type_reference, register_type_reference_in_call_graph. destruct k.
    1,3,4: eexists; split; [reflexivity|destruct N; split; cbn; auto].
    all: destruct (sane_reference referenced_name LType t N) as (t1 & E & S) ||
      destruct (sane_reference n LType t N) as (t1 & E & S);
      rewrite E; eexists; split; [reflexivity|destruct S; split; cbn; auto].
  - eexists; split; [reflexivity|destruct N; split; cbn; auto].
  - eexists; split; [reflexivity|destruct N; split; cbn; auto].
  - eexists; split; [reflexivity|destruct N; split; cbn; auto].
  - now apply sane_reference.
  - now apply sane_reference.
Qed.

Lemma sane_new : sane new.
Proof. split; cbn; [right; auto|intros ? ? []|intros ? ? []]. Qed.
Lemma performs cs : forall t, sane t ->
  (0 < nodes t \/ constants_begun cs) -> exists t', perform_all cs t = Some t'.
Proof.
  induction cs as [|c cs IH]; intros t N B; cbn; [eauto|].
  destruct (sane_perform c t N) as (t' & E & S).
  { intros n w p ->. destruct B as [B|B]; [exact B|]. destruct (B [] n w p cs eq_refl). }
  rewrite E. apply IH; [exact S|].
  pose proof (nodes_perform _ _ _ E) as M. destruct B as [B|B]; [left; lia|].
  destruct c; try (right; intros b n' w' p' a H; subst cs;
    destruct (B (_ :: b) n' w' p' a eq_refl) as [X|X]; [discriminate|exact X]).
  left. cbn in E. inversion E. cbn. lia.
Qed.
Theorem nothing_panics cs : constants_begun cs -> exists t, analysed cs = Some t.
Proof. intros B. apply performs; [exact sane_new|now right]. Qed.

(** ** Warnings *)

Definition waits (x : text * entity_kind * span) : bool :=
  match from_module (snd (fst x)) with Some _ => true | None => false end.
Definition the_module (x : text * entity_kind * span) : text :=
  match from_module (snd (fst x)) with Some m => m | None => [] end.
Definition modules_of (us : list (text * entity_kind * span)) : list text :=
  flat_map (fun x => match snd (fst x) with ImportedModule m => [m] | _ => [] end) us.
Definition positions_of (us : list (text * entity_kind * span)) : list N :=
  flat_map (fun x => if has_code (snd (fst x)) then [start (snd x)] else []) us.

Lemma handled_spec us : forall ps ms ws ims,
  fold_left handle_entity us (Handled ps ms ws ims) =
  Handled (rev (positions_of (map shown us)) ++ ps)
          (rev (modules_of (map shown us)) ++ ms)
          (ws ++ map warns (filter (fun x => negb (waits x)) (map shown us)))
          (ims ++ map (fun x => (the_module x, warns x)) (filter waits (map shown us))).
Proof.
  induction us as [|[e [o k]] us IH]; intros ps ms ws ims; cbn [fold_left].
  - cbn. now rewrite !app_nil_r.
  - unfold handle_entity at 2. cbn [fst snd kind origin].
    destruct k; rewrite IH; cbn [map filter positions_of modules_of flat_map shown waits negb from_module
      fst snd kind origin has_code app rev the_module warns]; rewrite <- ?app_assoc; try reflexivity;
      cbn [app rev]; rewrite <- ?app_assoc; reflexivity.
Qed.

Definition warned (us : list (text * entity_kind * span)) (x : text * entity_kind * span) : bool :=
  negb (waits x && existsb (text_eqb (the_module x)) (modules_of us)).
Lemma existsb_mem m l : existsb (text_eqb m) l = true <-> In m l.
Proof.
  rewrite existsb_exists. split; [intros (x & I & E); apply text_eqb_eq in E; now subst|].
  intros I. exists m. split; [exact I|apply text_eqb_refl].
Qed.
Lemma existsb_same m l l' : (forall x, In x l <-> In x l') -> existsb (text_eqb m) l = existsb (text_eqb m) l'.
Proof.
  intros H. destruct (existsb (text_eqb m) l') eqn:E.
  - apply existsb_mem in E. apply existsb_mem, H, E.
  - destruct (existsb (text_eqb m) l) eqn:E'; [|reflexivity].
    apply existsb_mem, H, existsb_mem in E'. congruence.
Qed.
Lemma in_modules m us : In m (modules_of us) <-> exists n w, In (n, ImportedModule m, w) us.
Proof.
  unfold modules_of. rewrite in_flat_map. split.
  - intros ([[n k] w] & I & H). cbn in H. destruct k; cbn in H; try contradiction.
    destruct H as [->|[]]. eauto.
  - intros (n & w & I). eexists. split; [exact I|]. now left.
Qed.
Lemma warned_spec us x : warned us x = true <-> ~ goes_with_import us x.
Proof.
  unfold warned, goes_with_import, waits, the_module. destruct x as [[n k] w]. cbn [fst snd].
  destruct (from_module k) as [m|] eqn:E; cbn [andb negb].
  - split.
    + intros H (m' & n' & w' & M & I). inversion M; subst m'.
      assert (X : existsb (text_eqb m) (modules_of us) = true) by (apply existsb_mem, in_modules; eauto).
      rewrite X in H. discriminate.
    + intros H. destruct (existsb (text_eqb m) (modules_of us)) eqn:X; [|reflexivity].
      apply existsb_mem, in_modules in X as (n' & w' & I). elim H. eauto.
  - split; [intros _ (m' & n' & w' & M & _); discriminate|reflexivity].
Qed.
Lemma partition_filter {A} (f g : A -> bool) l :
  Permutation (filter (fun x => negb (f x)) l ++ filter (fun x => f x && g x) l)
              (filter (fun x => negb (f x && negb (g x))) l).
Proof.
  induction l as [|x l IH]; cbn; [constructor|].
  destruct (f x), (g x); cbn.
  - rewrite <- Permutation_middle. now constructor.
  - exact IH.
  - now constructor.
  - now constructor.
Qed.
Lemma filter_waiting us (bad : text -> bool) :
  map snd (filter (fun p => negb (bad (fst p))) (map (fun x => (the_module x, warns x)) (filter waits us)))
  = map warns (filter (fun x => waits x && negb (bad (the_module x))) us).
Proof.
  induction us as [|x us IH]; cbn; [reflexivity|].
  destruct (waits x); cbn; [|exact IH]. destruct (bad (the_module x)); cbn; [exact IH|now rewrite IH].
Qed.

Theorem handled us :
  (exists told_about,
      (forall x, told_about x = true <-> ~ goes_with_import (map shown us) x)
      /\ Permutation (fst (handle_unused us)) (map warns (filter told_about (map shown us))))
  /\ forall p, In p (snd (handle_unused us)) <->
       exists n k w, In (n, k, w) (map shown us) /\ has_code k = true /\ p = start w.
Proof.
  unfold handle_unused. rewrite handled_spec. cbn [warnings unused_imported_items unused_modules unused_positions fst snd app].
  rewrite !app_nil_r. split.
  - exists (warned (map shown us)). split; [apply warned_spec|].
    rewrite (filter_waiting (map shown us) (fun m => existsb (text_eqb m) (rev (modules_of (map shown us))))).
    rewrite <- map_app. apply Permutation_map.
    eapply Permutation_trans; [apply partition_filter|].
    assert (X : forall x, negb (waits x && negb (negb (existsb (text_eqb (the_module x)) (rev (modules_of (map shown us))))))
                = warned (map shown us) x).
    { intros x. unfold warned. rewrite negb_involutive.
      rewrite (existsb_same (the_module x) (rev (modules_of (map shown us))) (modules_of (map shown us))); [reflexivity|].
      intros y. symmetry. apply in_rev. }
    rewrite (filter_ext _ _ X). apply Permutation_refl.
  - intros p. rewrite <- in_rev. unfold positions_of. rewrite in_flat_map. split.
    + intros ([[n k] w] & I & H). cbn in H. destruct (has_code k) eqn:E; [|contradiction].
      destruct H as [<-|[]]. eauto 6.
    + intros (n & k & w & I & E & ->). eexists. split; [exact I|]. cbn. rewrite E. now left.
Qed.
