(** What [unused] returns, for any state of the tracker and any order. *)
From Coq Require Import NArith List Bool Arith Lia Permutation.
From Verif Require Import Text TextProofs Reference.
Import ListNotations.
Local Open Scope nat_scope.
Local Open Scope list_scope.

Lemma layer_eqb_eq a b : layer_eqb a b = true <-> a = b.
Proof. destruct a, b; cbn; split; congruence. Qed.
Lemma entity_eqb_eq a b : entity_eqb a b = true <-> a = b.
Proof.
  unfold entity_eqb. rewrite andb_true_iff, text_eqb_eq, layer_eqb_eq.
  destruct a, b; cbn. split; [intros [-> ->]; reflexivity|intros H; inversion H; split; reflexivity].
Qed.
Lemma pair_eqb_eq a b : pair_eqb a b = true <-> a = b.
Proof.
  unfold pair_eqb. rewrite andb_true_iff, !text_eqb_eq.
  destruct a, b; cbn. split; [intros [-> ->]; reflexivity|intros H; inversion H; split; reflexivity].
Qed.
Lemma label_eqb_eq a b : label_eqb a b = true <-> a = b.
Proof.
  unfold label_eqb. rewrite !andb_true_iff, !text_eqb_eq.
  destruct a, b; cbn. split; [intros [[-> ->] ->]; reflexivity|].
  intros H; inversion H; repeat split; reflexivity.
Qed.

Lemma filter_shorter {A} (f : A -> bool) l : length (filter f l) <= length l.
Proof. induction l as [|x l IH]; cbn; [lia|]. destruct (f x); cbn; lia. Qed.

Section Maps.
Context {K V : Type} (same : K -> K -> bool) (same_eq : forall a b, same a b = true <-> a = b).

Lemma same_refl k : same k k = true. Proof. now apply same_eq. Qed.
Lemma get_some_in k v (m : list (K * V)) : get same k m = Some v -> In (k, v) m.
Proof.
  induction m as [|[k' v'] m IH]; cbn; [discriminate|].
  destruct (same k k') eqn:E; [|right; auto].
  apply same_eq in E as ->. intros H; inversion H; subst. now left.
Qed.
Lemma get_none k (m : list (K * V)) : get same k m = None <-> ~ In k (map fst m).
Proof.
  induction m as [|[k' v'] m IH]; cbn; [tauto|].
  destruct (same k k') eqn:E.
  - apply same_eq in E as ->. split; [discriminate|tauto].
  - rewrite IH. split; [intros H [->|H']; [now rewrite same_refl in E|auto]|tauto].
Qed.
Lemma get_in k v (m : list (K * V)) : NoDup (map fst m) -> In (k, v) m -> get same k m = Some v.
Proof.
  induction m as [|[k' v'] m IH]; cbn; [tauto|]. intros ND [H|H]; inversion ND; subst.
  - inversion H; subst. now rewrite same_refl.
  - destruct (same k k') eqn:E; [|auto]. apply same_eq in E as ->.
    exfalso. apply H2. apply in_map_iff. exists (k', v). auto.
Qed.
Lemma in_without k p (m : list (K * V)) : In p (without same k m) <-> In p m /\ fst p <> k.
Proof.
  unfold without. rewrite filter_In, negb_true_iff.
  split; intros [H E]; split; auto.
  - intros <-. now rewrite same_refl in E.
  - destruct (same k (fst p)) eqn:X; [|reflexivity]. apply same_eq in X. congruence.
Qed.
Lemma get_without k k' (m : list (K * V)) :
  get same k' (without same k m) = if same k k' then None else get same k' m.
Proof.
  induction m as [|[x v] m IH]; cbn; [now destruct (same k k')|].
  destruct (same k x) eqn:E; cbn; fold (without same k m); rewrite ?IH.
  - apply same_eq in E as ->. destruct (same x k') eqn:E2; [reflexivity|].
    destruct (same k' x) eqn:E3; [apply same_eq in E3 as ->; now rewrite same_refl in E2|reflexivity].
  - destruct (same k' x) eqn:E3; [|reflexivity].
    apply same_eq in E3 as ->. now rewrite E.
Qed.
Lemma get_put k k' v (m : list (K * V)) :
  get same k' (put same k v m) = if same k k' then Some v else get same k' m.
Proof.
  unfold put. cbn. rewrite get_without.
  destruct (same k' k) eqn:E.
  - apply same_eq in E as ->. now rewrite same_refl.
  - destruct (same k k') eqn:E2; [apply same_eq in E2 as ->; now rewrite same_refl in E|reflexivity].
Qed.
Lemma nodup_without k (m : list (K * V)) : NoDup (map fst m) -> NoDup (map fst (without same k m)).
Proof.
  induction m as [|[x v] m IH]; cbn; intros H; [constructor|]. inversion H; subst.
  destruct (negb (same k x)); cbn; [|auto]. constructor; [|auto].
  intros I. apply H2. apply in_map_iff in I as [p [E I]]. apply in_without in I as [I _].
  apply in_map_iff. exists p. auto.
Qed.
Lemma nodup_put k v (m : list (K * V)) : NoDup (map fst m) -> NoDup (map fst (put same k v m)).
Proof.
  intros H. cbn. constructor; [|now apply nodup_without].
  intros I. apply in_map_iff in I as [p [E I]]. apply in_without in I as [_ I]. auto.
Qed.
Lemma length_without k (m : list (K * V)) : length (without same k m) <= length m.
Proof. unfold without. apply filter_shorter. Qed.
Lemma length_without_in k (m : list (K * V)) :
  get same k m <> None -> length (without same k m) < length m.
Proof.
  induction m as [|[x v] m IH]; cbn; [tauto|].
  destruct (same k x) eqn:E; cbn; fold (without same k m); intros H.
  - pose proof (length_without k m). lia.
  - specialize (IH H). lia.
Qed.
End Maps.

(** ** Marking *)

Definition key (u : list (entity * information)) (e : entity) : Prop := In e (map fst u).

Lemma remove_some e u u' :
  remove entity_eqb e u = Some u' -> key u e /\ u' = without entity_eqb e u.
Proof.
  unfold remove. destruct (get entity_eqb e u) eqn:E; [|discriminate].
  intros H; inversion H; subst. split; [|reflexivity].
  apply get_some_in in E; [|apply entity_eqb_eq]. apply in_map_iff. now exists (e, i).
Qed.
Lemma remove_none e u : remove entity_eqb e u = None -> ~ key u e.
Proof.
  unfold remove. destruct (get entity_eqb e u) eqn:E; [discriminate|].
  intros _. apply get_none in E; [exact E|apply entity_eqb_eq].
Qed.

Section Marking.
Variable t : tracker.

(** From an entity to the next. *)
Definition next (e e' : entity) : Prop :=
  exists i j, by_left e (entities t) = Some i /\ In (i, j) (edges t)
              /\ by_right j (entities t) = Some e'.

Definition inverse : Prop :=
  forall e i, by_right i (entities t) = Some e -> by_left e (entities t) = Some i.

Lemma in_neighbors i j : In j (neighbors i t) <-> In (i, j) (edges t).
Proof.
  unfold neighbors. rewrite in_map_iff. split.
  - intros [[a b] [<- H]]. apply filter_In in H as [H E]. cbn in E. apply Nat.eqb_eq in E as ->. exact H.
  - intros H. exists (i, j). split; [reflexivity|]. apply filter_In. split; [exact H|]. cbn.
    apply Nat.eqb_refl.
Qed.

(** What is gone from [u] when [u'] is left. *)
Definition less (u u' : list (entity * information)) : Prop :=
  exists gone, u' = filter (fun p => negb (gone (fst p))) u.
Lemma less_refl u : less u u.
Proof. exists (fun _ => false). induction u as [|p u IH]; cbn; [reflexivity|f_equal; exact IH]. Qed.
Lemma less_trans u v w : less u v -> less v w -> less u w.
Proof.
  intros [g ->] [h ->]. exists (fun e => g e || h e).
  induction u as [|p u IH]; cbn; [reflexivity|]. destruct (g (fst p)); cbn; [exact IH|].
  destruct (h (fst p)); cbn; [exact IH|f_equal; exact IH].
Qed.
Lemma less_without e u : less u (without entity_eqb e u).
Proof. exists (fun x => entity_eqb e x). reflexivity. Qed.
Lemma less_in u v p : less u v -> In p v -> In p u.
Proof. intros [g ->] H. now apply filter_In in H. Qed.
Lemma less_key u v e : less u v -> key v e -> key u e.
Proof.
  intros L H. apply in_map_iff in H as [p [<- H]]. apply in_map. eapply less_in; eauto.
Qed.
Lemma less_in_key u v p : less u v -> In p u -> key v (fst p) -> In p v.
Proof.
  intros [g ->] H K. apply in_map_iff in K as [q [E K]]. apply filter_In in K as [_ K].
  apply filter_In. split; [exact H|]. now rewrite <- E.
Qed.
Lemma less_length u v : less u v -> length v <= length u.
Proof. intros [g ->]. apply filter_shorter. Qed.

(** Going from [u] to [u'] whatever is gone has its followers gone. *)
Definition closing (u u' : list (entity * information)) : Prop :=
  less u u' /\ forall x y, key u x -> ~ key u' x -> next x y -> ~ key u' y.
Lemma closing_refl u : closing u u.
Proof. split; [apply less_refl|]. tauto. Qed.
Lemma key_dec u e : key u e \/ ~ key u e.
Proof.
  unfold key. destruct (get entity_eqb e u) eqn:E.
  - left. apply get_some_in in E; [|apply entity_eqb_eq]. apply in_map_iff. now exists (e, i).
  - right. apply get_none in E; [exact E|apply entity_eqb_eq].
Qed.
Lemma closing_trans u v w : closing u v -> closing v w -> closing u w.
Proof.
  intros [L C] [L' C']. split; [eapply less_trans; eauto|].
  intros x y K N X. destruct (key_dec v x) as [K'|K'].
  - eapply C'; eauto.
  - intros Ky. eapply C; eauto. eapply less_key; eauto.
Qed.

Inductive path : entity -> entity -> Prop :=
| path_here e : path e e
| path_next e x y : path e x -> key (entity_information t) x -> next x y -> path e y.

Lemma path_first e x y :
  key (entity_information t) e -> next e x -> path x y -> path e y.
Proof.
  intros K X P. induction P as [x|x a b P IH Ka Xa].
  - eapply path_next; [apply path_here|exact K|exact X].
  - eapply path_next; [apply IH; exact X|exact Ka|exact Xa].
Qed.

Variable inv : inverse.

Lemma mark_fuel_closing : forall fuel u e i,
  length u < fuel -> by_left e (entities t) = Some i ->
  let u' := mark_entity_as_used fuel t e i u in
  closing u u' /\ ~ key u' e.
Proof.
  induction fuel as [|fuel IH]; intros u e i LT BL; [lia|].
  cbn [mark_entity_as_used]. destruct (remove entity_eqb e u) as [u1|] eqn:R.
  2:{ cbn. split; [apply closing_refl|now apply remove_none]. }
  apply remove_some in R as [Ke ->].
  assert (L1 : length (without entity_eqb e u) < fuel).
  { pose proof (length_without_in entity_eqb entity_eqb_eq e u) as X.
    assert (get entity_eqb e u <> None).
    { intros G. apply get_none in G; [auto|apply entity_eqb_eq]. }
    specialize (X H). lia. }
  set (f := fun u0 node => match by_right node (entities t) with
                           | Some e0 => mark_entity_as_used fuel t e0 node u0
                           | None => u0 end).
  (* the children *)
  assert (G : forall ns v, length v < fuel ->
            closing v (fold_left f ns v)
            /\ forall n y, In n ns -> by_right n (entities t) = Some y -> ~ key (fold_left f ns v) y).
  { induction ns as [|n ns IHn]; intros v Lv; cbn [fold_left].
    - split; [apply closing_refl|]. intros ? ? [].
    - assert (S1 : closing v (f v n)
                   /\ forall y, by_right n (entities t) = Some y -> ~ key (f v n) y).
      { unfold f. destruct (by_right n (entities t)) as [y|] eqn:B.
        - destruct (IH v y n Lv (inv _ _ B)) as [A1 A2]. split; [exact A1|].
          intros y' Y; inversion Y; subst. exact A2.
        - split; [apply closing_refl|]. discriminate. }
      destruct S1 as [A1 A2].
      assert (Lv' : length (f v n) < fuel).
      { destruct A1 as [A1 _]. apply less_length in A1. lia. }
      destruct (IHn (f v n) Lv') as [B1 B2]. split; [eapply closing_trans; eauto|].
      intros m y [->|I] B.
      + intros K. eapply A2; eauto. destruct B1 as [B1 _]. eapply less_key; eauto.
      + eauto. }
  destruct (G (neighbors i t) (without entity_eqb e u) L1) as [[GL GC] GN].
  cbn zeta. fold f. set (w := fold_left f (neighbors i t) (without entity_eqb e u)) in *.
  assert (Ne : ~ key w e).
  { intros K. eapply less_key in K; [|exact GL]. apply in_map_iff in K as [p [E K]].
    apply (in_without entity_eqb entity_eqb_eq) in K as [_ K]. auto. }
  split; [|exact Ne].
  split; [eapply less_trans; [apply less_without|exact GL]|].
  intros x y Kx Nx X. destruct (entity_eqb x e) eqn:E.
  - apply entity_eqb_eq in E as ->. destruct X as [a [b [A [B C]]]].
    rewrite BL in A. inversion A; subst a. apply (GN b); [now apply in_neighbors|exact C].
  - apply (GC x y); [|exact Nx|exact X].
    apply in_map_iff in Kx as [p [<- Kx]]. apply in_map. apply (in_without entity_eqb entity_eqb_eq).
    split; [exact Kx|]. intros Z. rewrite Z, (proj2 (entity_eqb_eq e e) eq_refl) in E. discriminate.
Qed.

(** Only what a path leads to is gone. *)
Lemma mark_fuel_path : forall fuel u e i,
  by_left e (entities t) = Some i -> less (entity_information t) u ->
  forall x, key u x -> ~ key (mark_entity_as_used fuel t e i u) x -> path e x.
Proof.
  induction fuel as [|fuel IH]; intros u e i BL LS x K N; [now elim N|].
  cbn [mark_entity_as_used] in N. destruct (remove entity_eqb e u) as [u1|] eqn:R; [|now elim N].
  apply remove_some in R as [Ke ->].
  destruct (entity_eqb x e) eqn:E; [apply entity_eqb_eq in E as ->; apply path_here|].
  assert (Kx : key (without entity_eqb e u) x).
  { apply in_map_iff in K as [p [<- K]]. apply in_map. apply (in_without entity_eqb entity_eqb_eq).
    split; [exact K|]. intros Z. rewrite Z, (proj2 (entity_eqb_eq e e) eq_refl) in E. discriminate. }
  revert N.
  assert (LS' : less (entity_information t) (without entity_eqb e u))
    by (eapply less_trans; [exact LS|apply less_without]).
  assert (SUB : forall n, In n (neighbors i t) -> In n (neighbors i t)) by auto.
  revert SUB LS' Kx. generalize (without entity_eqb e u) as v.
  generalize (neighbors i t) at 1 3 as ns.
  induction ns as [|n ns IHn]; intros v SUB LS' Kx; cbn [fold_left]; [tauto|].
  intros N.
  set (v' := match by_right n (entities t) with
             | Some e0 => mark_entity_as_used fuel t e0 n v
             | None => v end) in N.
  destruct (key_dec v' x) as [K'|K'].
  - apply (IHn v'); auto; [intros m I; apply SUB; now right|].
    unfold v'. destruct (by_right n (entities t)) as [y|] eqn:B; [|exact LS'].
    clear -LS'. revert v y n LS'. clear. intros v y n LS'.
    eapply less_trans; [exact LS'|]. clear LS'. revert v y n.
    induction fuel as [|fuel IH]; intros v y n; cbn; [apply less_refl|].
    destruct (remove entity_eqb y v) as [v1|] eqn:R; [|apply less_refl].
    apply remove_some in R as [_ ->]. eapply less_trans; [apply (less_without y)|].
    generalize (without entity_eqb y v). induction (neighbors n t) as [|m ms IHm]; intros w; cbn.
    + apply less_refl.
    + eapply less_trans; [|apply IHm]. destruct (by_right m (entities t)); [apply IH|apply less_refl].
  - unfold v' in K'. destruct (by_right n (entities t)) as [y|] eqn:B; [|tauto].
    apply path_first with (x := y).
    + eapply less_key; [exact LS|exact Ke].
    + exists i, n. split; [exact BL|split; [|exact B]].
      apply in_neighbors. apply SUB. now left.
    + exact (IH v y n (inv _ _ B) LS' x Kx K').
Qed.
End Marking.

(** ** The whole of [unused] *)

(** What [unused] takes for used: public entities, modules that a name that is not public refers to
    unless a reference with the two names is recorded, and what follows from those. *)
Definition refers_to_module (t : tracker) (e : entity) (m : text) : Prop :=
  exists i j,
    by_left e (entities t) = Some i /\ layer_ e <> LModule
    /\ In (i, j) (edges t) /\ by_right j (entities t) = Some (Entity m LModule)
    /\ contains_key (m, name e) (type_references t) = false
    /\ contains_key (m, name e) (value_references t) = false.
Inductive reached (t : tracker) : entity -> Prop :=
| reached_public e i :
    In e (public_entities t) -> by_left e (entities t) = Some i -> reached t e
| reached_module e m :
    ~ In e (public_entities t) -> refers_to_module t e m -> reached t (Entity m LModule)
| reached_next e e' :
    reached t e -> key (entity_information t) e -> next t e e' -> reached t e'.

Lemma reached_path t e x : reached t e -> path t e x -> reached t x.
Proof.
  intros R P. induction P as [e|e x y P IH K X]; [exact R|].
  exact (reached_next t x y (IH R) K X).
Qed.

Lemma existsb_entity e l : existsb (entity_eqb e) l = true <-> In e l.
Proof.
  rewrite existsb_exists. split.
  - intros [x [I E]]. apply entity_eqb_eq in E as ->. exact I.
  - intros I. exists e. split; [exact I|now apply entity_eqb_eq].
Qed.

Section Unused.
Variable t : tracker.
Variable inv : inverse t.

(** What a step of going through the entities may do: only what is reached goes, and what goes has
    its followers go. *)
Definition good (u u' : list (entity * information)) : Prop :=
  closing t u u'
  /\ (less (entity_information t) u -> forall x, key u x -> ~ key u' x -> reached t x).
Lemma good_refl u : good u u.
Proof. split; [apply closing_refl|]. tauto. Qed.
Lemma good_trans u v w : good u v -> good v w -> good u w.
Proof.
  intros [A B] [C D]. split; [eapply closing_trans; eauto|].
  intros L x K N. destruct (key_dec v x) as [K'|K']; [|now apply (B L)].
  apply D; auto. destruct A as [A _]. eapply less_trans; eauto.
Qed.
Lemma mark_good e i u :
  by_left e (entities t) = Some i -> reached t e -> good u (mark t e i u) /\ ~ key (mark t e i u) e.
Proof.
  intros BL RE. unfold mark.
  destruct (mark_fuel_closing t inv (S (length u)) u e i) as [A B]; [lia|exact BL|].
  split; [|exact B]. split; [exact A|]. intros L x K N.
  eapply reached_path; [exact RE|]. eapply mark_fuel_path; eauto.
Qed.
Lemma good_key u v x : good u v -> key v x -> key u x.
Proof. intros [[L _] _]. now apply less_key. Qed.

Lemma publics_good : forall ps u,
  (forall e, In e ps -> In e (public_entities t)) ->
  let u' := fold_left (fun u e => match by_left e (entities t) with
                                  | Some index => mark t e index u
                                  | None => u end) ps u in
  good u u' /\ forall e i, In e ps -> by_left e (entities t) = Some i -> ~ key u' e.
Proof.
  induction ps as [|e ps IH]; intros u P; cbn [fold_left].
  - split; [apply good_refl|]. intros ? ? [].
  - set (v := match by_left e (entities t) with Some index => mark t e index u | None => u end).
    assert (S1 : good u v /\ forall i, by_left e (entities t) = Some i -> ~ key v e).
    { unfold v. destruct (by_left e (entities t)) as [i|] eqn:BL.
      - destruct (mark_good e i u BL) as [A B].
        + eapply reached_public; eauto. apply P. now left.
        + split; [exact A|]. intros i' H. exact B.
      - split; [apply good_refl|]. discriminate. }
    destruct S1 as [A B]. destruct (IH v) as [C D]; [intros; apply P; now right|].
    split; [eapply good_trans; eauto|]. intros x i [->|I] BL; [|eauto].
    intros K. eapply B; eauto. eapply good_key; eauto.
Qed.

Lemma referenced_good e i u :
  by_left e (entities t) = Some i -> ~ In e (public_entities t) ->
  let u' := mark_referenced_imports_as_used t e i u in
  good u u' /\ forall m, refers_to_module t e m -> ~ key u' (Entity m LModule).
Proof.
  intros BL NP. unfold mark_referenced_imports_as_used.
  destruct (layer_eqb (layer_ e) LModule) eqn:LE.
  { apply layer_eqb_eq in LE. rewrite LE. split; [apply good_refl|].
    intros m (a & b & _ & N & _). congruence. }
  assert (NM : layer_ e <> LModule) by (intros X; rewrite X in LE; discriminate).
  set (f := fun u0 node => match by_right node (entities t) with
                           | Some (Entity module LModule) =>
                               let is_imported_type := contains_key (module, name e) (type_references t) in
                               let is_imported_value := contains_key (module, name e) (value_references t) in
                               if is_imported_type || is_imported_value then u0
                               else mark t (Entity module LModule) node u0
                           | _ => u0 end).
  assert (G : forall ns v, (forall n, In n ns -> In (i, n) (edges t)) ->
            good v (fold_left f ns v)
            /\ forall n m, In n ns -> by_right n (entities t) = Some (Entity m LModule) ->
                 contains_key (m, name e) (type_references t) = false ->
                 contains_key (m, name e) (value_references t) = false ->
                 ~ key (fold_left f ns v) (Entity m LModule)).
  { induction ns as [|n ns IHn]; intros v SUB; cbn [fold_left].
    - split; [apply good_refl|]. intros ? ? [].
    - assert (S1 : good v (f v n)
              /\ forall m, by_right n (entities t) = Some (Entity m LModule) ->
                 contains_key (m, name e) (type_references t) = false ->
                 contains_key (m, name e) (value_references t) = false ->
                 ~ key (f v n) (Entity m LModule)).
      { unfold f. destruct (by_right n (entities t)) as [[m l]|] eqn:B; [|split; [apply good_refl|discriminate]].
        destruct l; try (split; [apply good_refl|discriminate]).
        cbn zeta. destruct (contains_key (m, name e) (type_references t)) eqn:T;
          [split; [apply good_refl|]; intros m' H; inversion H; subst; congruence|].
        destruct (contains_key (m, name e) (value_references t)) eqn:W; cbn [orb];
          [split; [apply good_refl|]; intros m' H; inversion H; subst; congruence|].
        destruct (mark_good (Entity m LModule) n v (inv _ _ B)) as [A1 A2].
        - eapply reached_module; [exact NP|]. exists i, n. repeat split; auto. apply SUB. now left.
        - split; [exact A1|]. intros m' H _ _. inversion H; subst. exact A2. }
      destruct S1 as [A B]. destruct (IHn (f v n)) as [C D]; [intros; apply SUB; now right|].
      split; [eapply good_trans; eauto|]. intros n' m [->|I] X Y Z; [|eauto].
      intros K. eapply B; eauto. eapply good_key; eauto. }
  destruct (G (neighbors i t) u) as [A B]; [intros n H; now apply in_neighbors|].
  assert (U : match layer_ e with LModule => u | _ => fold_left f (neighbors i t) u end
              = fold_left f (neighbors i t) u) by (destruct (layer_ e); congruence).
  fold f. cbn zeta in *. rewrite U. split; [exact A|].
  intros m (a & b & BL' & _ & E & BR & T & W). rewrite BL in BL'. inversion BL'; subst a.
  eapply B; eauto. now apply in_neighbors.
Qed.

Lemma entities_good : forall (ps : bimap) u,
  let u' := fold_left
    (fun u (p : entity * nat) => let e := fst p in
       match by_left e (entities t) with
       | None => u
       | Some index =>
           if existsb (entity_eqb e) (public_entities t) then mark t e index u
           else mark_referenced_imports_as_used t e index u
       end) ps u in
  good u u'
  /\ forall e m, In e (map fst ps) -> ~ In e (public_entities t) -> refers_to_module t e m ->
       ~ key u' (Entity m LModule).
Proof.
  induction ps as [|p ps IH]; intros u; cbn [fold_left map].
  - split; [apply good_refl|]. intros ? ? [].
  - cbn zeta. set (v := match by_left (fst p) (entities t) with
                       | None => u
                       | Some index =>
                           if existsb (entity_eqb (fst p)) (public_entities t) then mark t (fst p) index u
                           else mark_referenced_imports_as_used t (fst p) index u end).
    assert (S1 : good u v /\ forall m, ~ In (fst p) (public_entities t) ->
                   refers_to_module t (fst p) m -> ~ key v (Entity m LModule)).
    { unfold v. destruct (by_left (fst p) (entities t)) as [i|] eqn:BL.
      - destruct (existsb (entity_eqb (fst p)) (public_entities t)) eqn:X.
        + apply existsb_entity in X.
          destruct (mark_good (fst p) i u BL) as [A B]; [eapply reached_public; eauto|].
          split; [exact A|]. tauto.
        + assert (NP : ~ In (fst p) (public_entities t)).
          { intros I. apply existsb_entity in I. congruence. }
          destruct (referenced_good (fst p) i u BL NP) as [A B]. split; [exact A|]. auto.
      - split; [apply good_refl|]. intros m _ (a & b & H & _). congruence. }
    destruct S1 as [A B]. destruct (IH v) as [C D].
    split; [eapply good_trans; eauto|]. intros e m [<-|I] NP X; [|eauto].
    intros K. eapply B; eauto. eapply good_key; eauto.
Qed.

Theorem unused_spec publics all :
  Permutation publics (public_entities t) -> Permutation all (entities t) ->
  less (entity_information t) (unused publics all t)
  /\ forall e, key (entity_information t) e ->
       (key (unused publics all t) e <-> ~ reached t e).
Proof.
  intros PP PA. unfold unused.
  destruct (publics_good publics (entity_information t)) as [A B].
  { intros e I. eapply Permutation_in; eauto. }
  set (u1 := fold_left _ publics (entity_information t)) in *.
  destruct (entities_good all u1) as [C D]. cbn zeta in C, D.
  set (u2 := fold_left _ all u1) in *.
  pose proof (good_trans _ _ _ A C) as [[L CL] R].
  split; [exact L|]. intros e K. split.
  - intros K2 RE. revert K2. clear K. induction RE as [e i I BL|e m NP X|e e' RE IH Ke X].
    + intros K2. apply (B e i); auto; [|eapply good_key; eauto].
      eapply Permutation_in; [apply Permutation_sym; exact PP|exact I].
    + apply (D e m); auto. destruct X as (i & j & BL & _).
      apply get_some_in in BL; [|apply entity_eqb_eq].
      eapply Permutation_in; [apply Permutation_map, Permutation_sym; exact PA|].
      apply in_map_iff. now exists (e, i).
    + apply (CL e e'); auto.
  - intros NR. destruct (key_dec u2 e) as [K2|K2]; [exact K2|].
    elim NR. apply R; auto. apply less_refl.
Qed.
End Unused.
