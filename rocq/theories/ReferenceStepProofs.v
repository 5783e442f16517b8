(** Every call is written down. *)
From Coq Require Import NArith List Bool Arith Lia Permutation.
From Verif Require Import Text TextProofs Reference ReferenceSpec ReferenceMarkProofs ReferenceProofs.
Import ListNotations.
Local Open Scope nat_scope.
Local Open Scope list_scope.

(** Changes that the names do not see. *)
Definition alike (t t' : tracker) : Prop :=
  nodes t' = nodes t /\ entities t' = entities t /\ current_node t' = current_node t
  /\ public_entities t' = public_entities t /\ entity_information t' = entity_information t
  /\ module_name_to_node t' = module_name_to_node t.
Lemma tracks_alike l t t' : alike t t' -> edges t' = edges t -> tracks l t -> tracks l t'.
Proof.
  intros (A & B & C & D & E & F) G T. destruct T. split; rewrite ?A, ?B, ?C, ?D, ?E, ?F, ?G; auto.
Qed.

(** ** References *)

Lemma item_refer j l i x : item_at (refer_to j l) i x <-> item_at l i x.
Proof. unfold refer_to, item_at. destruct (holder l); reflexivity. Qed.
Lemma scope_refer j l : scope (refer_to j l) = scope l.
Proof. unfold refer_to. destruct (holder l); reflexivity. Qed.
Lemma imports_refer j l : imports (refer_to j l) = imports l.
Proof. unfold refer_to. destruct (holder l); reflexivity. Qed.
Lemma holder_refer j l : holder (refer_to j l) = holder l.
Proof. unfold refer_to. destruct (holder l) eqn:E; cbn; congruence. Qed.
Lemma items_refer j l : items (refer_to j l) = items l.
Proof. unfold refer_to. destruct (holder l); reflexivity. Qed.

Lemma sound_refer j l :
  sound l ->
  (forall i, holder l = Some i ->
    exists it jt, item_at l i it /\ item_at l j jt /\ i_known jt <> Begun
    /\ ((defined_item it = true
         /\ (i_sort jt = SModule -> scope l (i_name jt) SModule = Some j))
        \/ (i_sort jt = SModule
            /\ (imported_item it = true \/ exists m w, i_known it = Known (ModuleAlias m) w)))) ->
  sound (refer_to j l).
Proof.
  intros S H. destruct (holder l) as [i|] eqn:E.
  2:{ unfold refer_to. now rewrite E. }
  unfold refer_to. rewrite E. destruct S. unfold item_at in *. split; cbn; auto.
  - intros a b [X|X]; [|now apply s_refs]. inversion X; subst. now apply H.
  - intros a X. apply s_holder. congruence.
Qed.

Lemma tracks_refer j l t i :
  sound l -> tracks l t -> holder l = Some i -> j < length (items l) ->
  exists t', add_edge (current_node t) j t = Some t' /\ tracks (refer_to j l) t' /\ alike t t'.
Proof.
  intros S T H LT. unfold add_edge.
  rewrite (t_holder l t T i H), (t_nodes l t T).
  pose proof (s_holder l S i H) as HL.
  rewrite (proj2 (Nat.ltb_lt i _) HL), (proj2 (Nat.ltb_lt j _) LT). cbn [andb].
  eexists. split; [reflexivity|]. split; [|repeat split; cbn; auto].
  - unfold refer_to. rewrite H. destruct T. unfold overtaken, item_at in *.
    split; cbn; auto; [now rewrite t_edges|]. intros a X. apply t_holder. congruence.
  - symmetry. apply (t_nodes l t T).
Qed.

(** ** Strangers *)

Lemma sound_stranger n s l :
  sound l -> scope l n s = None ->
  sound (in_scope n s (length (items l)) (new_item (Item n s Stranger false) l)).
Proof.
  intros S N. set (it := Item n s Stranger false).
  assert (C : forall i x, item_at (in_scope n s (length (items l)) (new_item it l)) i x ->
            item_at l i x \/ (i = length (items l) /\ x = it)).
  { unfold item_at. cbn. intros i x H. now apply nth_app_cases in H. }
  assert (O : forall i x, item_at l i x -> item_at (in_scope n s (length (items l)) (new_item it l)) i x).
  { unfold item_at. cbn. intros i x H. now apply nth_app_old. }
  assert (NW : item_at (in_scope n s (length (items l)) (new_item it l)) (length (items l)) it).
  { unfold item_at. cbn. apply nth_app_new. }
  assert (SC : forall n' s' i, scope l n' s' = Some i ->
                 scope (in_scope n s (length (items l)) (new_item it l)) n' s' = Some i).
  { intros n' s' i H. cbn. destruct (text_eqb n n' && sort_eqb s s') eqn:E; [|exact H].
    apply takes_eq in E as [-> ->]. congruence. }
  split.
  - intros n' s' i. cbn [scope in_scope]. destruct (text_eqb n n' && sort_eqb s s') eqn:E.
    + intros H; inversion H; subst i. apply takes_eq in E as [<- <-]. exists it. repeat split; auto.
      cbn. discriminate.
    + intros H. destruct (s_scope l S n' s' i H) as (x & X & Y). exists x. auto.
  - intros m j H. destruct (s_imports l S m j H) as (x & y & X & Y). exists x, y. auto.
  - intros i x k' w' X K. apply C in X as [X|[-> ->]]; [eapply s_sort; eauto|discriminate].
  - intros i x X K. apply C in X as [X|[-> ->]]; [eapply s_begun; eauto|discriminate].
  - intros i x X P. apply C in X as [X|[-> ->]]; [eapply s_public; eauto|discriminate].
  - intros i x X L. apply C in X as [X|[-> ->]].
    + apply SC. now apply (s_lasting l S).
    + cbn. now rewrite takes_refl.
  - intros i j R. cbn [refs in_scope new_item] in R.
    destruct (s_refs l S i j R) as (x & y & X & Y & B & H). exists x, y.
    split; [auto|]. split; [auto|]. split; [exact B|].
    destruct H as [[D M]|H]; [left|right; exact H]. split; [exact D|]. auto.
  - cbn. intros i H. pose proof (s_holder l S i H). rewrite app_length. cbn. lia.
Qed.

Lemma get_or_create_old n s l t i :
  tracks l t -> scope l n s = Some i -> get_or_create_node n (lay s) t = (i, t).
Proof. intros T H. unfold get_or_create_node. now rewrite (t_scope l t T), H. Qed.

Lemma get_or_create_new n s l t :
  sound l -> tracks l t -> scope l n s = None ->
  exists t', get_or_create_node n (lay s) t = (length (items l), t')
    /\ tracks (in_scope n s (length (items l)) (new_item (Item n s Stranger false) l)) t'
    /\ current_node t' = current_node t.
Proof.
  intros S T N. unfold get_or_create_node. rewrite (t_scope l t T), N. unfold add_node.
  rewrite (t_nodes l t T). eexists. split; [reflexivity|]. split; [|reflexivity].
  set (it := Item n s Stranger false). set (e := Entity n (lay s)).
  cbn [entities set_graph].
  pose proof (tracks_fresh l t S T) as FR. rewrite (t_nodes l t T) in FR.
  pose proof (fun x => insert_left e (length (items l)) (entities t) x (t_bij l t T) FR) as L.
  pose proof (insert_bij e (length (items l)) _ (t_bij l t T)) as B.
  set (b := snd (bimap_insert e (length (items l)) (entities t))) in *. clearbody b.
  assert (XS : forall n', entity_eqb e (Entity n' LShadowed) = false).
  { intros n'. destruct (entity_eqb e (Entity n' LShadowed)) eqn:E; [|reflexivity].
    apply entity_eqb_eq in E. inversion E. destruct s; discriminate. }
  assert (OLDER : forall i x, nth_error (items l) i = Some x -> nth_error (items l ++ [it]) i = Some x)
    by (intros; now apply nth_app_old).
  split; cbn [nodes edges current_node module_name_to_node entities entity_information public_entities
              set_entities set_graph items refs holder scope imports in_scope new_item].
  - rewrite app_length. cbn. lia.
  - apply (t_edges l t T).
  - apply (t_holder l t T).
  - apply (t_imports l t T).
  - exact B.
  - apply (t_keys l t T).
  - intros n' s'. rewrite L. unfold e. rewrite takes_entity, (t_scope l t T). reflexivity.
  - intros n' s'. rewrite (t_info l t T). destruct (text_eqb n n' && sort_eqb s s') eqn:E.
    + apply takes_eq in E as [<- <-]. rewrite N, nth_app_new. reflexivity.
    + destruct (scope l n' s') as [i|] eqn:SC; [|reflexivity].
      destruct (s_scope l S _ _ _ SC) as (x & X & _). unfold item_at in X. now rewrite X, (OLDER _ _ X).
  - intros n'. rewrite L, XS. pose proof (t_shadow l t T n') as OT.
    destruct (by_left (Entity n' LShadowed) (entities t)) as [i|].
    + destruct OT as (x & kx & wx & AX & NX & KX & SX & GX). exists x, kx, wx.
      split; [unfold item_at; cbn; now apply OLDER|]. split; [exact NX|]. split; [exact KX|].
      split; [|exact GX]. destruct (text_eqb n n' && sort_eqb s (i_sort x)) eqn:E; [|exact SX].
      intros H; inversion H. apply item_at_lt in AX. lia.
    + destruct OT as [G O]. split; [exact G|]. intros i (x & AX & NX & BX & SX).
      unfold item_at in AX. cbn in AX, SX. apply nth_app_cases in AX as [AX|[-> ->]].
      * apply (O i). exists x. repeat split; auto.
        destruct (text_eqb n n' && sort_eqb s (i_sort x)) eqn:E; [|exact SX].
        apply takes_eq in E as [<- <-]. rewrite N. discriminate.
      * cbn in NX, SX. subst n'. rewrite takes_refl in SX. congruence.
  - intros n' ly. rewrite (t_public l t T). split.
    + intros (s' & i & x & -> & SC & AT & PX). exists s', i, x. split; [reflexivity|].
      split; [|split; [unfold item_at; cbn; now apply OLDER|exact PX]].
      destruct (text_eqb n n' && sort_eqb s s') eqn:E; [|exact SC].
      apply takes_eq in E as [<- <-]. congruence.
    + intros (s' & i & x & -> & SC & AT & PX).
      destruct (text_eqb n n' && sort_eqb s s') eqn:E.
      * inversion SC; subst i. unfold item_at in AT. cbn in AT. rewrite nth_app_new in AT.
        inversion AT; subst x. discriminate.
      * exists s', i, x. split; [reflexivity|]. split; [exact SC|].
        destruct (s_scope l S _ _ _ SC) as (y & Y & _).
        unfold item_at in AT |- *. cbn in AT. rewrite (OLDER _ _ Y) in AT. inversion AT; subst. now split.
Qed.

Lemma mention_step n s l t :
  sound l -> tracks l t -> definition_held l ->
  exists t', add_reference_edge n (lay s) t = Some t' /\ tracks (mention n s l) t' /\ sound (mention n s l).
Proof.
  intros S T (i & it & H & AT & D). unfold add_reference_edge, mention.
  destruct (scope l n s) as [j|] eqn:SC.
  - rewrite (get_or_create_old n s l t j T SC).
    destruct (s_scope l S n s j SC) as (jt & AJ & NM & SR & NB).
    destruct (tracks_refer j l t i S T H (item_at_lt _ _ _ AJ)) as (t' & E & T' & _).
    exists t'. split; [exact E|]. split; [exact T'|].
    apply sound_refer; [exact S|]. intros i' H'. rewrite H in H'. inversion H'; subst i'.
    exists it, jt. split; [exact AT|]. split; [exact AJ|]. split; [exact NB|]. left.
    split; [exact D|]. intros SM. congruence.
  - destruct (get_or_create_new n s l t S T SC) as (t1 & -> & T1 & _).
    pose proof (sound_stranger n s l S SC) as S1.
    set (l1 := in_scope n s (length (items l)) (new_item (Item n s Stranger false) l)) in *.
    assert (H1 : holder l1 = Some i) by exact H.
    assert (NW : item_at l1 (length (items l)) (Item n s Stranger false)) by apply nth_app_new.
    destruct (tracks_refer (length (items l)) l1 t1 i S1 T1 H1 (item_at_lt _ _ _ NW)) as (t' & E & T' & _).
    exists t'. split; [exact E|]. split; [exact T'|].
    apply sound_refer; [exact S1|]. intros i' H'. rewrite H1 in H'. inversion H'; subst i'.
    exists it, (Item n s Stranger false). split; [unfold item_at; cbn; now apply nth_app_old|].
    split; [exact NW|]. split; [discriminate|]. left. split; [exact D|].
    cbn. intros ->. now rewrite takes_refl.
Qed.

(** ** Registrations *)

Lemma announce_holder n s k w p l : holder (announce n s k w p l) = Some (length (items l)).
Proof. reflexivity. Qed.
Lemma announce_item n s k w p l :
  item_at (announce n s k w p l) (length (items l)) (Item n s (Known k w) (exposed p)).
Proof. apply nth_app_new. Qed.
Lemma announce_old n s k w p l i x : item_at l i x -> item_at (announce n s k w p l) i x.
Proof. unfold item_at. cbn. apply nth_app_old. Qed.

Lemma sound_mention_import m l i it :
  sound l -> holder l = Some i -> item_at l i it -> imported_item it = true ->
  sound (mention_import m l).
Proof.
  intros S H AT IM. unfold mention_import. destruct (imports l m) as [j|] eqn:E; [|exact S].
  destruct (s_imports l S m j E) as (jt & w & AJ & SJ & KJ).
  apply sound_refer; [exact S|]. intros i' H'. rewrite H in H'. inversion H'; subst i'.
  exists it, jt. split; [exact AT|]. split; [exact AJ|]. split; [rewrite KJ; discriminate|].
  right. auto.
Qed.

Lemma sound_announce_from n s k w p l :
  sound l -> takeable n s l -> of_sort k s = true -> (exposed p = true -> defined_kind k = true) ->
  sound (announce_from n s k w p l).
Proof.
  intros S T O P. unfold announce_from.
  pose proof (sound_announce n s k w p l S T O P) as S1.
  destruct (source k) as [m|] eqn:E; [|exact S1].
  eapply sound_mention_import; [exact S1|apply announce_holder|apply announce_item|].
  unfold imported_item, imported_kind. cbn. now rewrite E.
Qed.

Lemma registered_graph e info p t es :
  registered e info p t = registered e info p t ->
  set_graph (nodes (registered e info p t)) es (registered e info p t)
  = inform e info (publish e p (set_graph (nodes (registered e info p t)) es
      (set_current (nodes t)
          (create_node_and_maybe_shadow e (nodes t) (set_graph (S (nodes t)) (edges t) t))))).
Proof. intros _. unfold registered, inform, publish. destruct p; reflexivity. Qed.

Lemma created_fields e t :
  let t1 := create_node_and_maybe_shadow e (nodes t) (set_graph (S (nodes t)) (edges t) t) in
  nodes t1 = S (nodes t) /\ edges t1 = edges t /\ module_name_to_node t1 = module_name_to_node t.
Proof.
  cbn zeta. unfold create_node_and_maybe_shadow. destruct (bimap_insert _ _ _) as [o b].
  assert (G : forall e i, let x := match get entity_eqb e (entity_information (set_entities b (set_graph (S (nodes t)) (edges t) t))) with
      | Some info =>
          let shadowed := Entity (name e) LShadowed in
          let t := set_information (put entity_eqb shadowed info (entity_information (set_entities b (set_graph (S (nodes t)) (edges t) t)))) (set_entities b (set_graph (S (nodes t)) (edges t) t)) in
          set_entities (snd (bimap_insert shadowed i (entities t))) t
      | None => set_entities b (set_graph (S (nodes t)) (edges t) t)
      end in nodes x = S (nodes t) /\ edges x = edges t /\ module_name_to_node x = module_name_to_node t).
  { intros e' i. cbn zeta. destruct (get _ _ _); repeat split; reflexivity. }
  destruct o as [|e' i|e' i|e' i|[e' i] r]; [repeat split; reflexivity|apply G..].
Qed.

(** Registering with an edge to the import is registering, then adding the edge. *)
Lemma register_with_edge e info p t k t1 :
  t1 = create_node_and_maybe_shadow e (nodes t) (set_graph (S (nodes t)) (edges t) t) ->
  (match register_module_reference_from_imported_entity k (set_current (nodes t) t1) with
   | Some t => Some (inform e info (publish e p t)) | None => None end)
  = match source k with
    | Some m => register_module_reference_by_module_name m (registered e info p t)
    | None => Some (registered e info p t)
    end.
Proof.
  intros ->. pose proof (created_fields e t) as (N & E & M).
  unfold registered. set (t1 := create_node_and_maybe_shadow e (nodes t) (set_graph (S (nodes t)) (edges t) t)) in *.
  clearbody t1.
  assert (H : forall m, match register_module_reference_by_module_name m (set_current (nodes t) t1) with
     | Some t => Some (inform e info (publish e p t)) | None => None end
     = register_module_reference_by_module_name m (inform e info (publish e p (set_current (nodes t) t1)))).
  { intros m. unfold register_module_reference_by_module_name, add_edge.
    assert (Q : forall x, module_name_to_node (inform e info (publish e p x)) = module_name_to_node x
      /\ nodes (inform e info (publish e p x)) = nodes x /\ edges (inform e info (publish e p x)) = edges x
      /\ current_node (inform e info (publish e p x)) = current_node x)
      by (intros; destruct p; repeat split; reflexivity).
    destruct (Q (set_current (nodes t) t1)) as (-> & Qn & Qe & Qc).
    cbn [module_name_to_node set_current].
    destruct (get text_eqb m (module_name_to_node t1)) as [j|]; [|reflexivity].
    rewrite Qn, Qe, Qc.
    destruct ((_ <? _) && (_ <? _)); [|reflexivity].
    destruct p; reflexivity. }
  destruct k; cbn [register_module_reference_from_imported_entity source]; auto.
Qed.

Lemma mention_import_step m l t i :
  sound l -> tracks l t -> holder l = Some i ->
  exists t', register_module_reference_by_module_name m t = Some t' /\ tracks (mention_import m l) t' /\ alike t t'.
Proof.
  intros S T H. unfold register_module_reference_by_module_name, mention_import.
  rewrite (t_imports l t T). destruct (imports l m) as [j|] eqn:E.
  - destruct (s_imports l S m j E) as (jt & w & AJ & _).
    apply (tracks_refer j l t i S T H). now apply item_at_lt in AJ.
  - exists t. repeat split; auto.
    all: apply T.
Qed.

Lemma announce_from_step n s k w p l t :
  sound l -> tracks l t -> takeable n s l -> of_sort k s = true -> (exposed p = true -> defined_kind k = true) ->
  exists t',
    (match register_module_reference_from_imported_entity k
             (set_current (nodes t) (create_node_and_maybe_shadow (Entity n (lay s)) (nodes t)
                                       (set_graph (Datatypes.S (nodes t)) (edges t) t))) with
     | Some t => Some (inform (Entity n (lay s)) (Information w k) (publish (Entity n (lay s)) p t))
     | None => None end) = Some t'
    /\ tracks (announce_from n s k w p l) t' /\ sound (announce_from n s k w p l).
Proof.
  intros S T TK O P.
  rewrite (register_with_edge (Entity n (lay s)) (Information w k) p t k _ eq_refl).
  pose proof (tracks_announce n s k w p l t S T TK P) as T1.
  pose proof (sound_announce n s k w p l S TK O P) as S1.
  pose proof (sound_announce_from n s k w p l S TK O P) as S2.
  unfold announce_from in *. destruct (source k) as [m|] eqn:E.
  - destruct (mention_import_step m _ _ _ S1 T1 (announce_holder n s k w p l)) as (t' & E' & T' & _).
    exists t'. auto.
  - eexists. split; [reflexivity|]. auto.
Qed.

(** ** Constants *)

Lemma sound_begin l :
  sound l -> sound (held_by (length (items l)) (new_item (Item [] SValue Begun false) l)).
Proof.
  intros S. set (it := Item [] SValue Begun false).
  assert (C : forall i x, item_at (held_by (length (items l)) (new_item it l)) i x ->
            item_at l i x \/ (i = length (items l) /\ x = it)).
  { unfold item_at. cbn. intros i x H. now apply nth_app_cases in H. }
  assert (O : forall i x, item_at l i x -> item_at (held_by (length (items l)) (new_item it l)) i x).
  { unfold item_at. cbn. intros i x H. now apply nth_app_old. }
  split.
  - intros n' s' i H. destruct (s_scope l S n' s' i H) as (x & X & Y). exists x. auto.
  - intros m j H. destruct (s_imports l S m j H) as (x & y & X & Y). exists x, y. auto.
  - intros i x k' w' X K. apply C in X as [X|[-> ->]]; [eapply s_sort; eauto|discriminate].
  - intros i x X K. apply C in X as [X|[-> ->]]; [eapply s_begun; eauto|split; reflexivity].
  - intros i x X P. apply C in X as [X|[-> ->]]; [eapply s_public; eauto|discriminate].
  - intros i x X L. apply C in X as [X|[-> ->]]; [now apply (s_lasting l S)|discriminate].
  - intros i j R. destruct (s_refs l S i j R) as (x & y & X & Y & B & H). exists x, y.
    split; [auto|]. split; [auto|]. split; [exact B|exact H].
  - cbn. intros i H. inversion H. rewrite app_length. cbn. lia.
Qed.
Lemma tracks_begin l t :
  sound l -> tracks l t ->
  tracks (held_by (length (items l)) (new_item (Item [] SValue Begun false) l)) (begin_constant t).
Proof.
  intros S T. unfold begin_constant. cbn [add_node]. set (it := Item [] SValue Begun false).
  assert (OLDER : forall i x, nth_error (items l) i = Some x -> nth_error (items l ++ [it]) i = Some x)
    by (intros; now apply nth_app_old).
  split; cbn [nodes edges current_node module_name_to_node entities entity_information public_entities
              set_entities set_graph set_current items refs holder scope imports held_by new_item].
  - rewrite app_length. cbn. rewrite (t_nodes l t T). lia.
  - apply (t_edges l t T).
  - intros i H. inversion H. apply (t_nodes l t T).
  - apply (t_imports l t T).
  - apply (t_bij l t T).
  - apply (t_keys l t T).
  - apply (t_scope l t T).
  - intros n' s'. rewrite (t_info l t T). destruct (scope l n' s') as [i|] eqn:SC; [|reflexivity].
    destruct (s_scope l S _ _ _ SC) as (x & X & _). unfold item_at in X. now rewrite X, (OLDER _ _ X).
  - intros n'. pose proof (t_shadow l t T n') as OT.
    destruct (by_left (Entity n' LShadowed) (entities t)) as [i|].
    + destruct OT as (x & kx & wx & AX & NX & KX & SX & GX). exists x, kx, wx.
      split; [unfold item_at; cbn; now apply OLDER|]. auto.
    + destruct OT as [G O]. split; [exact G|]. intros i (x & AX & NX & BX & SX).
      unfold item_at in AX. cbn in AX, SX. apply nth_app_cases in AX as [AX|[-> ->]].
      * apply (O i). exists x. repeat split; auto.
      * now elim BX.
  - intros n' ly. rewrite (t_public l t T). split.
    + intros (s' & i & x & -> & SC & AT & PX). exists s', i, x. split; [reflexivity|].
      split; [exact SC|split; [unfold item_at; cbn; now apply OLDER|exact PX]].
    + intros (s' & i & x & -> & SC & AT & PX).
      exists s', i, x. split; [reflexivity|]. split; [exact SC|].
      destruct (s_scope l S _ _ _ SC) as (y & Y & _).
      unfold item_at in AT |- *. cbn in AT. rewrite (OLDER _ _ Y) in AT. inversion AT; subst. now split.
Qed.

Lemma nth_set_same {A} i (x y : A) l : nth_error l i = Some y -> nth_error (set_nth i x l) i = Some x.
Proof. revert i. induction l as [|z l IH]; intros [|i]; cbn; try discriminate; auto. Qed.
Lemma nth_set_other {A} i j (x : A) l : i <> j -> nth_error (set_nth i x l) j = nth_error l j.
Proof.
  revert i j. induction l as [|z l IH]; intros [|i] [|j]; cbn; intros N; auto; try congruence.
Qed.
Lemma length_set {A} i (x : A) l : length (set_nth i x l) = length l.
Proof. revert i. induction l as [|z l IH]; intros [|i]; cbn; auto. Qed.

Section Finish.
Variables (n : text) (w : span) (p : publicity) (l : ledger) (i : nat) (old : item).
Hypothesis S : sound l.
Hypothesis TK : takeable n SValue l.
Hypothesis H : holder l = Some i.
Hypothesis AT : item_at l i old.
Hypothesis BG : i_known old = Begun.
Let it := Item n SValue (Known Constant w) (exposed p).
Let l' := finish n w p l.

Lemma finish_items : items l' = set_nth i it (items l).
Proof. unfold l', finish. rewrite H. reflexivity. Qed.
Lemma finish_scope n' s' :
  scope l' n' s' = if text_eqb n n' && sort_eqb SValue s' then Some i else scope l n' s'.
Proof. unfold l', finish. rewrite H. reflexivity. Qed.
Lemma finish_new : item_at l' i it.
Proof. unfold item_at. rewrite finish_items. eapply nth_set_same. exact AT. Qed.
Lemma finish_other j x : j <> i -> (item_at l' j x <-> item_at l j x).
Proof. intros N. unfold item_at. rewrite finish_items, nth_set_other by auto. reflexivity. Qed.
Lemma finish_cases j x : item_at l' j x -> (j <> i /\ item_at l j x) \/ (j = i /\ x = it).
Proof.
  intros X. destruct (Nat.eq_dec j i) as [->|N].
  - right. split; [reflexivity|]. pose proof finish_new as Y. unfold item_at in *. congruence.
  - left. split; [exact N|]. now apply finish_other.
Qed.
Lemma finish_not_begun j x : item_at l j x -> i_known x <> Begun -> j <> i /\ item_at l' j x.
Proof.
  intros X B. assert (j <> i). { intros ->. unfold item_at in *. congruence. }
  split; [exact H0|]. now apply finish_other.
Qed.
Lemma finish_rest : refs l' = refs l /\ holder l' = holder l /\ imports l' = imports l.
Proof. unfold l', finish. rewrite H. repeat split; reflexivity. Qed.

Lemma sound_finish : sound l'.
Proof.
  destruct finish_rest as (FR & FH & FI).
  split.
  - intros n' s' j. rewrite finish_scope. destruct (text_eqb n n' && sort_eqb SValue s') eqn:E.
    + intros X; inversion X; subst j. apply takes_eq in E as [<- <-]. exists it.
      split; [apply finish_new|]. repeat split. discriminate.
    + intros X. destruct (s_scope l S n' s' j X) as (x & Y & N & Q & B). exists x.
      split; [now apply finish_not_begun|]. auto.
  - intros m j. rewrite FI. intros X. destruct (s_imports l S m j X) as (x & y & Y & N & K).
    exists x, y. split; [apply finish_not_begun; [exact Y|rewrite K; discriminate]|]. auto.
  - intros j x k' w' X K. apply finish_cases in X as [[_ X]|[-> ->]]; [eapply s_sort; eauto|].
    inversion K; subst. reflexivity.
  - intros j x X K. apply finish_cases in X as [[_ X]|[-> ->]]; [eapply s_begun; eauto|discriminate].
  - intros j x X P. apply finish_cases in X as [[_ X]|[-> ->]]; [eapply s_public; eauto|].
    exists Constant, w. split; reflexivity.
  - intros j x X L. rewrite finish_scope. apply finish_cases in X as [[_ X]|[-> ->]].
    + pose proof (s_lasting l S j x X L) as SC.
      destruct (text_eqb n (i_name x) && sort_eqb SValue (i_sort x)) eqn:E; [|exact SC].
      apply takes_eq in E as [E1 E2]. rewrite <- E1, <- E2 in SC.
      destruct (takeable_not_lasting n SValue l j x TK SC X). congruence.
    + cbn [i_name i_sort it]. now rewrite takes_refl.
  - intros a b. rewrite FR. intros R. destruct (s_refs l S a b R) as (x & y & X & Y & B & Q).
    destruct (finish_not_begun b y Y B) as [NB Y'].
    assert (M : i_sort y = SModule -> scope l (i_name y) SModule = Some b ->
                scope l' (i_name y) SModule = Some b).
    { intros SM SC. rewrite finish_scope.
      destruct (text_eqb n (i_name y) && sort_eqb SValue SModule) eqn:E; [|exact SC].
      apply takes_eq in E as [_ E]. discriminate. }
    destruct (Nat.eq_dec a i) as [->|NA].
    + exists it, y. split; [apply finish_new|]. split; [exact Y'|]. split; [exact B|].
      left. split; [reflexivity|]. intros SM. apply M; [exact SM|].
      destruct Q as [[_ Q]|[_ Q]]; [now apply Q|].
      unfold item_at in X, AT. rewrite AT in X. inversion X; subst x.
      destruct Q as [Q|(m & w' & Q)]; [unfold imported_item in Q|]; rewrite BG in Q; discriminate.
    + exists x, y. split; [now apply finish_other|]. split; [exact Y'|]. split; [exact B|].
      destruct Q as [[D Q]|Q]; [left|right; exact Q]. split; [exact D|]. auto.
  - intros j. rewrite FH, finish_items, length_set. apply (s_holder l S).
Qed.

Lemma tracks_finish t : tracks l t -> tracks l' (register_constant n w p t).
Proof.
  intros T. destruct finish_rest as (FR & FH & FI).
  unfold register_constant. rewrite (t_holder l t T i H).
  set (e := Entity n LValue). change (Entity n LValue) with (Entity n (lay SValue)) in e.
  assert (FRESH : fresh i (entities t)).
  { intros [n' ly] X.
    assert (exists x, item_at l i x /\ i_known x <> Begun) as (x & AX & BX).
    { destruct ly.
      - pose proof (t_scope l t T n' SType) as Z. cbn [lay] in Z. rewrite X in Z. symmetry in Z.
        destruct (s_scope l S _ _ _ Z) as (x & I & _ & _ & B). eauto.
      - pose proof (t_scope l t T n' SValue) as Z. cbn [lay] in Z. rewrite X in Z. symmetry in Z.
        destruct (s_scope l S _ _ _ Z) as (x & I & _ & _ & B). eauto.
      - pose proof (t_shadow l t T n') as Z. rewrite X in Z. destruct Z as (x & k & w' & I & _ & K & _).
        exists x. split; [exact I|]. rewrite K. discriminate.
      - pose proof (t_scope l t T n' SModule) as Z. cbn [lay] in Z. rewrite X in Z. symmetry in Z.
        destruct (s_scope l S _ _ _ Z) as (x & I & _ & _ & B). eauto. }
    unfold item_at in *. congruence. }
  destruct (shadow_spec e i t _ (t_bij l t T) FRESH ltac:(discriminate) eq_refl) as (B & L & I & EQ).
  set (t1 := create_node_and_maybe_shadow e i t) in *.
  assert (BE : by_left e (entities t) = scope l n SValue) by apply (t_scope l t T).
  assert (GE : get entity_eqb e (entity_information t) =
    match scope l n SValue with
    | Some i => match nth_error (items l) i with Some it => known_info (i_known it) | None => None end
    | None => None end) by apply (t_info l t T).
  assert (OLD : match scope l n SValue with
    | None => (forall x, by_left x (entities t1) = if entity_eqb e x then Some i else by_left x (entities t))
              /\ entity_information t1 = entity_information t
    | Some j => exists jt k' w', item_at l j jt /\ i_known jt = Known k' w' /\ i_name jt = n /\ i_sort jt = SValue
        /\ (forall x, by_left x (entities t1) = if entity_eqb e x then Some i
             else if entity_eqb (Entity n LShadowed) x then Some j else by_left x (entities t))
        /\ entity_information t1 = put entity_eqb (Entity n LShadowed) (Information w' k') (entity_information t)
    end).
  { rewrite BE in *. rewrite GE in *. destruct (scope l n SValue) as [j|] eqn:SC; [|split; auto].
    destruct (s_scope l S n SValue j SC) as (jt & AJ & NM & SR & NB).
    destruct (takeable_not_lasting n SValue l j jt TK SC AJ) as (_ & k' & w' & KN).
    exists jt, k', w'. unfold item_at in AJ. rewrite AJ, KN in L, I. cbn in L, I. auto 10. }
  clear L I BE GE. clearbody t1.
  set (tr := inform e (Information w Constant) (publish e p t1)).
  destruct (publish_fields e p t1) as [PE PI].
  assert (F : nodes tr = nodes t /\ edges tr = edges t /\ current_node tr = current_node t
    /\ module_name_to_node tr = module_name_to_node t /\ entities tr = entities t1
    /\ entity_information tr = put entity_eqb e (Information w Constant) (entity_information t1)
    /\ public_entities tr = public_entities (publish e p t1)
    /\ public_entities t1 = public_entities t).
  { unfold tr, inform. destruct p; cbn [publish]; cbn; rewrite EQ; repeat split; reflexivity. }
  destruct F as (FN & FE & FC & FM & FB & FF & FP & FP1).
  clearbody tr.
  assert (INF : forall x, get entity_eqb x (entity_information tr) =
            if entity_eqb e x then Some (Information w Constant) else get entity_eqb x (entity_information t1)).
  { intros x. rewrite FF. apply get_put, entity_eqb_eq. }
  assert (XS : forall n', entity_eqb e (Entity n' LShadowed) = false).
  { intros n'. destruct (entity_eqb e (Entity n' LShadowed)) eqn:E; [|reflexivity].
    apply entity_eqb_eq in E. inversion E. }
  assert (XL : forall n' s', entity_eqb (Entity n LShadowed) (Entity n' (lay s')) = false).
  { intros n' s'. destruct (entity_eqb (Entity n LShadowed) (Entity n' (lay s'))) eqn:E; [|reflexivity].
    apply entity_eqb_eq in E. inversion E. destruct s'; discriminate. }
  assert (BL : forall n' s', by_left (Entity n' (lay s')) (entities t1) = scope l' n' s').
  { intros n' s'. rewrite finish_scope, <- (takes_entity n SValue n' s'). fold e.
    rewrite <- (t_scope l t T n' s').
    destruct (scope l n SValue) as [j|].
    - destruct OLD as (jt & k' & w' & _ & _ & _ & _ & L & _). rewrite L, XL. reflexivity.
    - destruct OLD as [L _]. apply L. }
  assert (GI : forall n' s', get entity_eqb (Entity n' (lay s')) (entity_information t1)
                = get entity_eqb (Entity n' (lay s')) (entity_information t)).
  { intros n' s'. destruct (scope l n SValue) as [j|].
    - destruct OLD as (jt & k' & w' & _ & _ & _ & _ & _ & I). rewrite I.
      rewrite (get_put entity_eqb entity_eqb_eq), XL. reflexivity.
    - destruct OLD as [_ ->]. reflexivity. }
  split.
  - rewrite FN, (t_nodes l t T), finish_items, length_set. reflexivity.
  - rewrite FE, FR. apply (t_edges l t T).
  - rewrite FC, FH. apply (t_holder l t T).
  - rewrite FM, FI. apply (t_imports l t T).
  - now rewrite FB.
  - rewrite FF. apply nodup_put; [apply entity_eqb_eq|].
    destruct (scope l n SValue) as [j|].
    + destruct OLD as (jt & k' & w' & _ & _ & _ & _ & _ & ->).
      apply nodup_put; [apply entity_eqb_eq|apply (t_keys l t T)].
    + destruct OLD as [_ ->]. apply (t_keys l t T).
  - intros n' s'. rewrite FB. apply BL.
  - intros n' s'. rewrite INF. unfold e. rewrite takes_entity, finish_scope.
    destruct (text_eqb n n' && sort_eqb SValue s') eqn:E.
    + pose proof finish_new as X. unfold item_at in X. rewrite X. reflexivity.
    + rewrite GI, (t_info l t T).
      destruct (scope l n' s') as [j|] eqn:SC; [|reflexivity].
      destruct (s_scope l S _ _ _ SC) as (x & X & _ & _ & NB).
      destruct (finish_not_begun j x X NB) as [_ X']. unfold item_at in X, X'. now rewrite X, X'.
  - intros n'. rewrite FB.
    assert (SH : by_left (Entity n' LShadowed) (entities t1) =
              match scope l n SValue with
              | Some j => if text_eqb n n' then Some j else by_left (Entity n' LShadowed) (entities t)
              | None => by_left (Entity n' LShadowed) (entities t) end).
    { destruct (scope l n SValue) as [j|].
      - destruct OLD as (jt & k' & w' & _ & _ & _ & _ & L & _). rewrite L, XS.
        unfold entity_eqb at 1. cbn. rewrite andb_true_r. reflexivity.
      - destruct OLD as [L _]. now rewrite L, XS. }
    rewrite INF, XS, SH. clear SH INF.
    pose proof (t_shadow l t T n') as OT.
    (* an item that was overtaken still is *)
    assert (KEEP : forall j x k' w', item_at l j x -> i_name x = n' -> i_known x = Known k' w' ->
              scope l n' (i_sort x) <> Some j -> item_at l' j x /\ scope l' n' (i_sort x) <> Some j).
    { intros j x k' w' AX NX KX SX.
      destruct (finish_not_begun j x AX) as [NJ AX']; [rewrite KX; discriminate|].
      split; [exact AX'|]. rewrite finish_scope.
      destruct (text_eqb n n' && sort_eqb SValue (i_sort x)); [congruence|exact SX]. }
    destruct (scope l n SValue) as [j|] eqn:SC.
    + destruct OLD as (jt & k' & w' & AJ & KN & NM & SR & L & I).
      rewrite I, (get_put entity_eqb entity_eqb_eq).
      assert (Z : entity_eqb (Entity n LShadowed) (Entity n' LShadowed) = text_eqb n n').
      { unfold entity_eqb. cbn. apply andb_true_r. }
      rewrite Z. destruct (text_eqb n n') eqn:E.
      * apply text_eqb_eq in E as <-. exists jt, k', w'.
        destruct (finish_not_begun j jt AJ) as [NJ AJ']; [rewrite KN; discriminate|].
        split; [exact AJ'|]. split; [exact NM|]. split; [exact KN|].
        split; [|reflexivity]. rewrite finish_scope, SR, takes_refl. congruence.
      * destruct (by_left (Entity n' LShadowed) (entities t)) as [j'|].
        -- destruct OT as (x & kx & wx & AX & NX & KX & SX & GX). exists x, kx, wx.
           destruct (KEEP j' x kx wx AX NX KX SX). auto.
        -- destruct OT as [G O]. split; [exact G|]. intros j' (x & AX & NX & BX & SX).
           apply finish_cases in AX as [[_ AX]|[-> ->]].
           ++ apply (O j'). exists x. repeat split; auto. rewrite finish_scope, E in SX. exact SX.
           ++ cbn in NX. subst n'. now rewrite text_eqb_refl in E.
    + destruct OLD as [L I]. rewrite I.
      destruct (by_left (Entity n' LShadowed) (entities t)) as [j'|].
      * destruct OT as (x & kx & wx & AX & NX & KX & SX & GX). exists x, kx, wx.
        destruct (KEEP j' x kx wx AX NX KX SX). auto.
      * destruct OT as [G O]. split; [exact G|]. intros j' (x & AX & NX & BX & SX).
        rewrite finish_scope in SX. apply finish_cases in AX as [[_ AX]|[-> ->]].
        -- apply (O j'). exists x. repeat split; auto.
           destruct (text_eqb n n' && sort_eqb SValue (i_sort x)) eqn:E; [|exact SX].
           apply takes_eq in E as [<- <-]. rewrite SC. discriminate.
        -- cbn in NX, SX. subst n'. rewrite text_eqb_refl in SX. cbn in SX. congruence.
  - intros n' ly. rewrite FP, PI, FP1, (t_public l t T).
    split.
    + intros [(s' & j & x & -> & SC & AX & PX)|[PX E]].
      * exists s', j, x. split; [reflexivity|].
        destruct (s_public l S j x AX PX) as (kx & wx & KX & D).
        assert (LS : lasting (i_known x) = true) by (rewrite KX; cbn; now destruct kx).
        rewrite finish_scope. destruct (text_eqb n n' && sort_eqb SValue s') eqn:E.
        { apply takes_eq in E as [<- <-].
          destruct (takeable_not_lasting n SValue l j x TK SC AX). congruence. }
        split; [exact SC|]. split; [|exact PX]. apply finish_not_begun; [exact AX|rewrite KX; discriminate].
      * inversion E; subst. exists SValue, i, it.
        rewrite finish_scope, takes_refl. repeat split; auto. apply finish_new.
    + intros (s' & j & x & -> & SC & AX & PX). rewrite finish_scope in SC.
      destruct (text_eqb n n' && sort_eqb SValue s') eqn:E.
      * inversion SC; subst j. pose proof finish_new as X. unfold item_at in AX, X. rewrite X in AX.
        inversion AX; subst x. right. apply takes_eq in E as [-> <-]. split; [exact PX|reflexivity].
      * left. exists s', j, x. split; [reflexivity|]. split; [exact SC|]. split; [|exact PX].
        destruct (s_scope l S _ _ _ SC) as (y & Y & _ & _ & NB).
        destruct (finish_not_begun j y Y NB) as [_ Y'].
        unfold item_at in *. congruence.
Qed.
End Finish.

(** ** Imports of modules *)

Lemma sound_imports_as m i l it w :
  sound l -> item_at l i it -> i_sort it = SModule -> i_known it = Known (ImportedModule m) w ->
  sound (imports_as m i l).
Proof.
  intros S AT SM K. destruct S. unfold item_at in *. split; cbn; auto.
  intros m' j. destruct (text_eqb m m') eqn:E; [|exact (s_imports m' j)].
  apply text_eqb_eq in E as <-. intros H; inversion H; subst. exists it, w. auto.
Qed.
Lemma tracks_imports_as m i l t :
  tracks l t -> tracks (imports_as m i l) (set_module_nodes (put text_eqb m i (module_name_to_node t)) t).
Proof.
  intros T. destruct T. unfold overtaken, item_at in *. split; cbn; auto.
  intros m'.
  change (get text_eqb m' (put text_eqb m i (module_name_to_node t))
          = if text_eqb m m' then Some i else imports l m').
  rewrite (get_put text_eqb text_eqb_eq). now destruct (text_eqb m m').
Qed.

Lemma register_module_step u m w mw al l t :
  sound l -> tracks l t -> scope l u SModule = None ->
  let l' := imports_as m (length (items l)) (announce u SModule (ImportedModule m) w Private l) in
  tracks l' (register_module u m w mw al t) /\ sound l'.
Proof.
  intros S T N l'.
  assert (TK : takeable u SModule l) by (now left).
  pose proof (sound_announce u SModule (ImportedModule m) w Private l S TK eq_refl ltac:(discriminate)) as S1.
  pose proof (tracks_announce u SModule (ImportedModule m) w Private l t S T TK ltac:(discriminate)) as T1.
  split.
  - unfold register_module, create_node. cbn [add_node].
    eapply tracks_alike; [| |apply (tracks_imports_as m (length (items l)) _ _ T1)].
    + unfold alike. rewrite <- (t_nodes l t T). unfold registered. cbn [lay publish].
      set (t1 := create_node_and_maybe_shadow (Entity u LModule) (nodes t) (set_graph (Datatypes.S (nodes t)) (edges t) t)).
      repeat split; reflexivity.
    + reflexivity.
  - eapply sound_imports_as; [exact S1|apply announce_item|reflexivity|reflexivity].
Qed.

Lemma register_aliased_step u m aw w mw l t :
  sound l -> tracks l t -> scope l u SModule = None ->
  exists t', register_aliased_module u m aw w mw t = Some t'
    /\ tracks (write (RegisterAliasedModule u m aw w mw) l) t'
    /\ sound (write (RegisterAliasedModule u m aw w mw) l).
Proof.
  intros S T N. unfold register_aliased_module.
  destruct (register_module_step u m w mw (Some aw) l t S T N) as [T1 S1].
  set (t1 := register_module u m w mw (Some aw) t) in *.
  set (i := length (items l)).
  set (l1 := imports_as m (length (items l)) (announce u SModule (ImportedModule m) w Private l)) in *.
  assert (SC : scope l1 u SModule = Some i) by (cbn; now rewrite text_eqb_refl).
  assert (A1 : item_at l1 i (Item u SModule (Known (ImportedModule m) w) false)) by apply nth_app_new.
  assert (NR : forall a, ~ In (a, i) (refs l1)).
  { intros a R. cbn in R. destruct (s_refs l S a i R) as (x & y & _ & Y & _).
    apply item_at_lt in Y. unfold i in Y. lia. }
  assert (TK : takeable u SModule l1).
  { right. exists i, (Item u SModule (Known (ImportedModule m) w) false), (ImportedModule m), w.
    split; [exact SC|]. split; [exact A1|]. split; [reflexivity|]. right. exists m. auto. }
  pose proof (sound_announce u SModule (ModuleAlias m) aw Private l1 S1 TK eq_refl ltac:(discriminate)) as S2.
  pose proof (tracks_announce u SModule (ModuleAlias m) aw Private l1 t1 S1 T1 TK ltac:(discriminate)) as T2.
  set (l2 := announce u SModule (ModuleAlias m) aw Private l1) in *.
  assert (H2 : holder l2 = Some (length (items l1))) by reflexivity.
  destruct (mention_import_step m l2 _ _ S2 T2 H2) as (t' & E & T' & _).
  assert (IM : imports l2 m = Some i) by (cbn; now rewrite text_eqb_refl).
  assert (RW : write (RegisterAliasedModule u m aw w mw) l = mention_import m l2).
  { unfold mention_import. rewrite IM. reflexivity. }
  rewrite RW. exists t'.
  split; [|split; [exact T'|]].
  - rewrite <- E. unfold create_node. cbn [add_node]. unfold registered. cbn [publish lay].
    set (t2 := set_current (nodes t1) (create_node_and_maybe_shadow (Entity u LModule) (nodes t1)
            (set_graph (Datatypes.S (nodes t1)) (edges t1) t1))).
    unfold register_module_reference_by_module_name, inform, add_edge.
    cbn [module_name_to_node set_information].
    destruct (get text_eqb m (module_name_to_node t2)) as [j|]; [|reflexivity].
    cbn [nodes set_information current_node].
    destruct ((current_node t2 <? nodes t2) && (j <? nodes t2)); reflexivity.
  - unfold mention_import. rewrite IM. apply sound_refer; [exact S2|].
    intros a HA. rewrite H2 in HA. inversion HA; subst a.
    exists (Item u SModule (Known (ModuleAlias m) aw) false), (Item u SModule (Known (ImportedModule m) w) false).
    split; [apply announce_item|]. split; [now apply announce_old|]. split; [discriminate|].
    right. split; [reflexivity|]. right. exists m, aw. reflexivity.
Qed.

(** ** All calls *)

Lemma fits_of_sort k s : fits k s = true -> of_sort k s = true.
Proof. destruct k, s; cbn; auto; discriminate. Qed.
Lemma exposed_defined k s p :
  fits k s = true -> (imported_kind k = true -> exposed p = false) -> exposed p = true -> defined_kind k = true.
Proof. destruct k, s; cbn; try discriminate; auto; intros _ H E; rewrite H in E by reflexivity; discriminate. Qed.

Lemma step c l t :
  sound l -> tracks l t -> proper c l ->
  exists t', perform c t = Some t' /\ tracks (write c l) t' /\ sound (write c l).
Proof.
  intros S T P. destruct c; cbn [perform write proper] in *.
  - eexists. split; [reflexivity|]. split; [now apply tracks_begin|now apply sound_begin].
  - destruct P as [C (i & it & H & AT & K)]. apply can_take_takeable in C.
    eexists. split; [reflexivity|]. split; [eapply tracks_finish; eauto|eapply sound_finish; eauto].
  - destruct P as (F & E & C). apply can_take_takeable in C.
    apply (announce_from_step n SValue k location p l t S T C (fits_of_sort _ _ F) (exposed_defined _ _ _ F E)).
  - destruct P as (i & it & SC & AT & D). rewrite SC.
    eexists. split; [reflexivity|]. unfold set_current_node.
    change LValue with (lay SValue). rewrite (get_or_create_old n SValue l t i T SC). split.
    + destruct T. unfold overtaken, item_at in *. split; cbn; auto. intros j H. now inversion H.
    + destruct S. unfold item_at in *. split; cbn; auto. intros j H. inversion H; subst. now apply item_at_lt in AT.
  - destruct P as (F & E & C). apply can_take_takeable in C.
    apply (announce_from_step n SType k location p l t S T C (fits_of_sort _ _ F) (exposed_defined _ _ _ F E)).
  - apply (register_aliased_step used_name module_name alias_location import_location module_location l t S T P).
  - eexists. split; [reflexivity|]. apply (register_module_step _ _ _ _ None l t S T P).
  - unfold register_value_reference. destruct k; cbn [by_name] in *.
    1,3,4: eexists; split; [reflexivity|]; split; [|exact S];
      (eapply tracks_alike; [| |exact T]; [repeat split; reflexivity|reflexivity]).
    all: destruct (mention_step referenced_name SValue l t S T (P eq_refl)) as (t' & E & T' & S');
      cbn [lay] in E; rewrite E; eexists; split; [reflexivity|]; split; [|exact S'];
      (eapply tracks_alike; [| |exact T']; [repeat split; reflexivity|reflexivity]).
  - unfold register_type_reference, register_type_reference_in_call_graph. destruct k; cbn [by_name] in *.
    1,3,4: eexists; split; [reflexivity|]; split; [|exact S];
      (eapply tracks_alike; [| |exact T]; [repeat split; reflexivity|reflexivity]).
    all: destruct (mention_step referenced_name SType l t S T (P eq_refl)) as (t' & E & T' & S');
      cbn [lay] in E; rewrite E; eexists; split; [reflexivity|]; split; [|exact S'];
      (eapply tracks_alike; [| |exact T']; [repeat split; reflexivity|reflexivity]).
  - eexists. split; [reflexivity|]. split; [|exact S].
    eapply tracks_alike; [| |exact T]; [repeat split; reflexivity|reflexivity].
  - eexists. split; [reflexivity|]. split; [|exact S].
    eapply tracks_alike; [| |exact T]; [repeat split; reflexivity|reflexivity].
  - eexists. split; [reflexivity|]. split; [|exact S].
    eapply tracks_alike; [| |exact T]; [repeat split; reflexivity|reflexivity].
  - apply (mention_step n SType l t S T P).
  - apply (mention_step n SModule l t S T P).
Qed.

Lemma steps cs : forall l t,
  sound l -> tracks l t -> proper_from cs l ->
  exists t', perform_all cs t = Some t' /\ tracks (fold_left (fun l c => write c l) cs l) t'
    /\ sound (fold_left (fun l c => write c l) cs l).
Proof.
  induction cs as [|c cs IH]; intros l t S T P.
  - exists t. auto.
  - destruct P as [P PS]. destruct (step c l t S T P) as (t' & E & T' & S').
    cbn [perform_all fold_left]. rewrite E. now apply IH.
Qed.
Theorem analysed_tracks cs :
  orderly cs -> exists t, analysed cs = Some t /\ tracks (written cs) t /\ sound (written cs).
Proof. intros O. apply steps; [apply sound_blank|apply tracks_blank|exact O]. Qed.
