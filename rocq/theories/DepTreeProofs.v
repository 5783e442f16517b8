From Coq Require Import NArith Bool List Arith Lia Permutation Relations.
From Verif Require Import Text TextProofs DepTree DepTreeSpec.
Import ListNotations.
Local Open Scope nat_scope.

Lemma mem_spec n l : mem n l = true <-> In n l.
Proof.
  unfold mem. rewrite existsb_exists. split.
  - intros (x & H & E). apply Nat.eqb_eq in E. now subst.
  - intros H. exists n. now rewrite Nat.eqb_refl.
Qed.
Lemma mem_false n l : mem n l = false <-> ~ In n l.
Proof. rewrite <- mem_spec. destruct (mem n l); split; congruence. Qed.

Section Graph.
Context (g : graph).
Definition edge a b := In (a, b) (edges g).
Definition reach := clos_refl_trans _ edge.
Definition well_formed := forall a b, edge a b -> a < node_count g /\ b < node_count g.

Lemma neighbors_spec a b : In b (neighbors g a) <-> edge a b.
Proof.
  unfold neighbors, edge. rewrite <- in_rev, in_map_iff. split.
  - intros ([x y] & <- & H). apply filter_In in H as [H E]. apply Nat.eqb_eq in E. simpl in *. now subst.
  - intros H. exists (a, b). split; auto. apply filter_In. split; auto. apply Nat.eqb_refl.
Qed.
Lemma incoming_spec a b : In a (neighbors_incoming g b) <-> edge a b.
Proof.
  unfold neighbors_incoming, edge. rewrite <- in_rev, in_map_iff. split.
  - intros ([x y] & <- & H). apply filter_In in H as [H E]. apply Nat.eqb_eq in E. simpl in *. now subst.
  - intros H. exists (a, b). split; auto. apply filter_In. split; auto. apply Nat.eqb_refl.
Qed.

(** ** The first half *)
Fixpoint before (x : nat) (stack : list nat) : list nat :=
  match stack with
  | [] => []
  | y :: s => if Nat.eqb y x then [] else y :: before x s
  end.

Record inv (disc fin stack : list nat) : Prop := {
  fin_disc : incl fin disc;
  fin_nodup : NoDup fin;
  open_in_stack : forall x, In x disc -> ~ In x fin -> In x stack;
  open_reaches : forall x, In x disc -> ~ In x fin -> forall y, In y (before x stack) -> reach x y;
  open_succs : forall x, In x disc -> ~ In x fin -> forall s, edge x s -> In s disc \/ In s (before x stack);
  no_self : forall x, In x disc -> ~ edge x x;
  finish_order : forall l1 j l2, fin = l1 ++ j :: l2 -> forall i, edge j i -> In i l2 \/ reach i j;
  disc_nodes : forall x, In x disc -> x < node_count g;
  stack_nodes : forall x, In x stack -> x < node_count g
}.

Lemma before_app x a b : ~ In x a -> before x (a ++ b) = a ++ before x b.
Proof.
  induction a as [|y a IH]; simpl; intros H; [reflexivity|].
  destruct (Nat.eqb_spec y x); [tauto|]. rewrite IH; tauto.
Qed.

Lemma pop_inv disc fin nx below : well_formed -> inv disc fin (nx :: below) -> In nx disc ->
  inv disc (if mem nx fin then fin else nx :: fin) below.
Proof.
  intros WF I D. destruct (mem nx fin) eqn:M.
  - apply mem_spec in M. destruct I as [A B C E F G H J K].
    assert (NX : forall x, In x disc -> ~ In x fin -> (nx =? x) = false)
      by (intros x _ Fx; apply Nat.eqb_neq; congruence).
    constructor; auto.
    + intros x Dx Fx. specialize (C x Dx Fx) as [<-|]; [contradiction|auto].
    + intros x Dx Fx y Hy. apply (E x Dx Fx). simpl. rewrite NX by auto. now right.
    + intros x Dx Fx s Hs. specialize (F x Dx Fx s Hs). simpl in F. rewrite NX in F by auto.
      destruct F as [F|[<-|F]]; auto.
    + intros x Hx. apply K. now right.
  - apply mem_false in M. destruct I as [A B C E F G H J K].
    assert (NX : forall x, In x disc -> ~ In x (nx :: fin) -> (nx =? x) = false /\ ~ In x fin).
    { intros x _ Fx. split; [apply Nat.eqb_neq; intros ->; apply Fx; now left|intros ?; apply Fx; now right]. }
    constructor; auto.
    + intros x [<-|Hx]; auto.
    + now constructor.
    + intros x Dx Fx. destruct (NX x Dx Fx) as [N1 N2]. apply Nat.eqb_neq in N1.
      specialize (C x Dx N2) as [<-|]; [contradiction|auto].
    + intros x Dx Fx y Hy. destruct (NX x Dx Fx) as [N1 N2]. apply (E x Dx N2). simpl. rewrite N1. now right.
    + intros x Dx Fx s Hs. destruct (NX x Dx Fx) as [N1 N2]. specialize (F x Dx N2 s Hs). simpl in F.
      rewrite N1 in F. destruct F as [F|[<-|F]]; auto.
    + intros l1 j l2 Eq i Hi. destruct l1 as [|z l1]; simpl in Eq.
      * injection Eq as <- <-. 
        assert (Di : In i disc).
        { destruct (F nx D M i Hi) as [X|X]; auto. simpl in X. rewrite Nat.eqb_refl in X. contradiction. }
        destruct (in_dec Nat.eq_dec i fin) as [X|X]; auto. right.
        apply (E i Di X). simpl. destruct (Nat.eqb_spec nx i) as [<-|]; [|now left].
        now apply G in Hi.
      * injection Eq as <- Eq. exact (H _ _ _ Eq i Hi).
    + intros x Hx. apply K. now right.
Qed.

Lemma push_inv disc fin nx below : well_formed -> inv disc fin (nx :: below) -> ~ In nx disc -> ~ edge nx nx ->
  inv (nx :: disc) fin
    (rev (filter (fun s => negb (mem s (nx :: disc))) (neighbors g nx)) ++ nx :: below).
Proof.
  intros WF I D NS. set (new := rev _).
  assert (New : forall s, In s new <-> edge nx s /\ ~ In s (nx :: disc)).
  { intros s. unfold new. rewrite <- in_rev, filter_In, neighbors_spec, negb_true_iff, mem_false. reflexivity. }
  destruct I as [A B C E F G H J K].
  assert (Bn : forall x, In x (nx :: disc) -> before x (new ++ nx :: below) = new ++ before x (nx :: below)).
  { intros x Hx. apply before_app. intros X. now apply New in X as [_ X]. }
  constructor.
  - intros x Hx. right. auto.
  - auto.
  - intros x [<-|Dx] Fx; apply in_app_iff; right; [now left|auto].
  - intros x Dx Fx y. rewrite Bn by auto. rewrite in_app_iff. destruct Dx as [<-|Dx].
    + intros [Hy|Hy]; [apply rt_step; now apply New|]. simpl in Hy. rewrite Nat.eqb_refl in Hy. contradiction.
    + assert (R : reach x nx).
      { apply (E x Dx Fx). simpl. destruct (Nat.eqb_spec nx x) as [<-|]; [contradiction|now left]. }
      intros [Hy|Hy]; [|auto]. apply rt_trans with nx; auto. apply rt_step. now apply New.
  - intros x Dx Fx s Hs. rewrite Bn by auto. rewrite in_app_iff. destruct Dx as [<-|Dx].
    + destruct (in_dec Nat.eq_dec s (nx :: disc)); auto. right. left. now apply New.
    + destruct (F x Dx Fx s Hs) as [X|X]; [left; now right|auto].
  - intros x [<-|Dx]; auto.
  - auto.
  - intros x [<-|Dx]; auto. apply K. now left.
  - intros x Hx. apply in_app_iff in Hx as [Hx|Hx]; auto. apply New in Hx as [Hx _]. now apply WF in Hx.
Qed.

Lemma search_inv fuel : well_formed -> forall disc fin stack, inv disc fin stack ->
  match search fuel g disc fin stack with
  | Done (disc', fin') => inv disc' fin' [] /\ incl disc disc' /\ incl stack disc'
  | CycleAt n => edge n n
  | OutOfFuel => True
  end.
Proof.
  intros WF. induction fuel as [|fuel IH]; intros disc fin stack I; simpl; [exact Logic.I|].
  destruct stack as [|nx below]; [split; [exact I|split; [apply incl_refl|intros x []]]|].
  destruct (mem nx disc) eqn:M.
  - apply mem_spec in M. specialize (IH _ _ _ (pop_inv _ _ _ _ WF I M)).
    destruct (search _ _ _ _ below) as [[disc' fin']|n|]; auto.
    destruct IH as (I' & S1 & S2). split; auto. split; auto. intros x [<-|Hx]; auto.
  - apply mem_false in M. destruct (mem nx (neighbors g nx)) eqn:S.
    + apply mem_spec, neighbors_spec in S. exact S.
    + rewrite mem_false, neighbors_spec in S. specialize (IH _ _ _ (push_inv _ _ _ _ WF I M S)).
      destruct (search _ _ _ _ _) as [[disc' fin']|n|]; auto.
      destruct IH as (I' & S1 & S2). split; auto. split.
      * intros x Hx. apply S1. now right.
      * intros x Hx. apply S2, in_app_iff. now right.
Qed.

(** Fuel *)
Definition weight (disc : list nat) : nat :=
  length (filter (fun v => negb (mem v disc)) (seq 0 (node_count g)))
  + length (filter (fun e => negb (mem (fst e) disc)) (edges g)).

Lemma filter_le {A} (p q : A -> bool) l : (forall x, p x = true -> q x = true) ->
  length (filter p l) <= length (filter q l).
Proof.
  intros H. induction l as [|a l IH]; simpl; [lia|].
  destruct (p a) eqn:P; [rewrite (H a P); simpl; lia|]. destruct (q a); simpl; lia.
Qed.
Lemma filter_short {A} (p : A -> bool) l : length (filter p l) <= length l.
Proof. induction l as [|a l IH]; simpl; [lia|]. destruct (p a); simpl; lia. Qed.
Lemma filter_lt {A} (p q : A -> bool) l a : (forall x, p x = true -> q x = true) ->
  In a l -> p a = false -> q a = true -> length (filter p l) < length (filter q l).
Proof.
  intros H. induction l as [|b l IH]; simpl; intros I P Q; [contradiction|].
  pose proof (filter_le p q l H).
  destruct I as [->|I].
  - rewrite P, Q. simpl. lia.
  - specialize (IH I P Q). destruct (p b) eqn:Pb; [rewrite (H b Pb); simpl; lia|]. destruct (q b); simpl; lia.
Qed.

Lemma mem_cons_le x disc : forall v, negb (mem v (x :: disc)) = true -> negb (mem v disc) = true.
Proof. intros v. rewrite !negb_true_iff, !mem_false. simpl. tauto. Qed.

Lemma weight_discover nx disc : nx < node_count g -> ~ In nx disc ->
  weight (nx :: disc) + 1 + length (neighbors g nx) <= weight disc.
Proof.
  intros L D. unfold weight.
  assert (H1 : length (filter (fun v => negb (mem v (nx :: disc))) (seq 0 (node_count g)))
          < length (filter (fun v => negb (mem v disc)) (seq 0 (node_count g)))).
  { apply filter_lt with nx.
    - apply mem_cons_le.
    - apply in_seq. lia.
    - rewrite negb_false_iff, mem_spec. now left.
    - now rewrite negb_true_iff, mem_false. }
  assert (H2 : length (filter (fun e => negb (mem (fst e) (nx :: disc))) (edges g)) + length (neighbors g nx)
          = length (filter (fun e => negb (mem (fst e) disc)) (edges g))).
  { unfold neighbors. rewrite rev_length, map_length. induction (edges g) as [|[a b] l IH]; [reflexivity|].
    cbn [filter fst].
    destruct (Nat.eqb_spec a nx) as [->|N].
    - replace (mem nx (nx :: disc)) with true by (symmetry; apply mem_spec; now left).
      apply mem_false in D. rewrite D. cbn [negb length]. lia.
    - replace (mem a (nx :: disc)) with (mem a disc).
      + destruct (mem a disc); cbn [negb length]; lia.
      + unfold mem. simpl. replace (a =? nx) with false by (symmetry; now apply Nat.eqb_neq). reflexivity. }
  lia.
Qed.

Lemma search_fuel_ok fuel : well_formed -> forall disc fin stack, inv disc fin stack ->
  weight disc + length stack < fuel -> search fuel g disc fin stack <> OutOfFuel.
Proof.
  intros WF. induction fuel as [|fuel IH]; intros disc fin stack I L; [lia|]. simpl.
  destruct stack as [|nx below]; [discriminate|]. simpl in L.
  destruct (mem nx disc) eqn:M.
  - apply mem_spec in M. apply IH; [now apply pop_inv|lia].
  - apply mem_false in M. destruct (mem nx (neighbors g nx)) eqn:S; [discriminate|].
    rewrite mem_false, neighbors_spec in S. apply IH; [now apply push_inv|].
    pose proof (weight_discover nx disc (stack_nodes _ _ _ I nx (or_introl eq_refl)) M).
    rewrite app_length, rev_length. simpl.
    assert (length (filter (fun s => negb (mem s (nx :: disc))) (neighbors g nx)) <= length (neighbors g nx)).
    { apply filter_short. }
    simpl in *. lia.
Qed.

Lemma weight_total disc : weight disc <= node_count g + length (edges g).
Proof.
  unfold weight.
  assert (F : forall A (p : A -> bool) l, length (filter p l) <= length l).
  { clear. intros A p l. induction l; simpl; [lia|]. destruct (p a); simpl; lia. }
  pose proof (F _ (fun v => negb (mem v disc)) (seq 0 (node_count g))).
  pose proof (F _ (fun e => negb (mem (fst e) disc)) (edges g)).
  rewrite seq_length in *. lia.
Qed.

Lemma restart_inv disc fin i : inv disc fin [] -> i < node_count g -> ~ In i disc -> inv disc fin [i].
Proof.
  intros [A B C E F G H J K] L D. constructor; auto.
  - intros x Dx Fx. destruct (C x Dx Fx).
  - intros x Dx Fx. destruct (C x Dx Fx).
  - intros x Dx Fx. destruct (C x Dx Fx).
  - intros x [<-|[]]. auto.
Qed.

Lemma search_all_inv nodes : well_formed -> forall disc fin, inv disc fin [] ->
  (forall i, In i nodes -> i < node_count g) ->
  match search_all (search_fuel g) g disc fin nodes with
  | Done fin' => exists disc', inv disc' fin' [] /\ incl disc disc' /\ incl nodes disc'
  | CycleAt n => edge n n
  | OutOfFuel => False
  end.
Proof.
  intros WF. induction nodes as [|i nodes IH]; intros disc fin I L; cbn [search_all].
  { exists disc. split; auto. split; [apply incl_refl|intros x []]. }
  destruct (mem i disc) eqn:M.
  - apply mem_spec in M. specialize (IH disc fin I (fun j Hj => L j (or_intror Hj))).
    destruct (search_all _ _ _ _ nodes); auto. destruct IH as (d & I' & S1 & S2). exists d.
    split; auto. split; auto. intros x [<-|Hx]; auto.
  - apply mem_false in M. assert (I' := restart_inv _ _ _ I (L i (or_introl eq_refl)) M).
    pose proof (search_inv (search_fuel g) WF _ _ _ I') as S.
    pose proof (search_fuel_ok (search_fuel g) WF _ _ _ I') as NF.
    destruct (search _ _ _ _ [i]) as [[disc' fin']|n|]; auto.
    + destruct S as (I'' & S1 & S2). specialize (IH _ _ I'' (fun j Hj => L j (or_intror Hj))).
      destruct (search_all _ _ _ _ nodes); auto. destruct IH as (d & I3 & S3 & S4). exists d.
      split; auto. split; [intros x Hx; auto|]. intros x [<-|Hx]; auto. apply S3, S2. now left.
    + apply NF; auto. pose proof (weight_total disc). unfold search_fuel. simpl. lia.
Qed.

Lemma empty_inv : inv [] [] [].
Proof. constructor; try (intros x []; fail); [constructor|]. intros [|? ?] ? ? E; discriminate. Qed.

(** ** The second half *)
Lemma dfs_next_none disc stack : dfs_next g disc stack = None <-> incl stack disc.
Proof.
  induction stack as [|n stack IH]; simpl; [split; [intros _ x []|reflexivity]|].
  destruct (mem n disc) eqn:M.
  - apply mem_spec in M. rewrite IH. split; [intros H x [<-|Hx]; auto|intros H x Hx; apply H; now right].
  - apply mem_false in M. split; [discriminate|]. intros H. destruct M. apply H. now left.
Qed.
Lemma dfs_next_some disc stack j d s : dfs_next g disc stack = Some (j, d, s) -> In j stack /\ ~ In j disc.
Proof.
  induction stack as [|n stack IH]; simpl; [discriminate|].
  destruct (mem n disc) eqn:M; [intros H; destruct (IH H); auto|].
  apply mem_false in M. intros [= <- _ _]. auto.
Qed.

Lemma check_components_spec order : forall disc,
  NoDup (rev disc ++ order) ->
  match check_components g disc order with
  | None => forall l1 i l2, order = l1 ++ i :: l2 -> forall p, edge p i -> p = i \/ In p disc \/ In p l1
  | Some j => exists l1 i l2, order = l1 ++ i :: l2 /\ edge j i /\ j <> i /\ ~ In j disc /\ ~ In j l1
  end.
Proof.
  induction order as [|i order IH]; intros disc ND; cbn [check_components].
  { intros [|] ? ? E; discriminate. }
  assert (D : ~ In i disc).
  { apply NoDup_remove_2 in ND. intros H. apply ND, in_app_iff. left. now apply in_rev in H. }
  cbn [dfs_next]. destruct (mem i disc) eqn:M; [apply mem_spec in M; contradiction|]. clear M.
  rewrite app_nil_r. set (st := rev _).
  assert (St : forall p, In p st <-> edge p i /\ ~ In p (i :: disc)).
  { intros p. unfold st. rewrite <- in_rev, filter_In, incoming_spec, negb_true_iff, mem_false. reflexivity. }
  destruct (dfs_next g (i :: disc) st) as [[[j d] s]|] eqn:E.
  - apply dfs_next_some in E as [E _]. apply St in E as [E N]. exists [], i, order. simpl in N. repeat split; auto.
  - apply dfs_next_none in E.
    assert (P : forall p, edge p i -> In p (i :: disc)).
    { intros p Hp. destruct (in_dec Nat.eq_dec p (i :: disc)); auto. apply E, St. auto. }
    specialize (IH (i :: disc)). simpl in IH. rewrite <- app_assoc in IH. specialize (IH ND).
    destruct (check_components g (i :: disc) order) as [j|].
    + destruct IH as (l1 & i' & l2 & -> & H1 & H2 & H3 & H4). exists (i :: l1), i', l2. split; [reflexivity|]. split; [auto|]. split; [auto|].
      split; [intros H; apply H3; now right|].
      intros [<-|H]; [apply H3; now left|auto].
    + intros l1 i' l2 Eq p Hp. destruct l1 as [|x l1]; simpl in Eq; injection Eq as -> Eq.
      * destruct (P p Hp) as [->|]; auto.
      * destruct (IH _ _ _ Eq p Hp) as [H|[[->|H]|H]]; auto; right; right; [now left|now right].
Qed.

Theorem toposort_spec : well_formed ->
  match toposort g with
  | Done order => Permutation order (seq 0 (node_count g)) /\
      forall a b, edge a b -> comes_before a b order
  | CycleAt n => exists m, edge n m /\ reach m n
  | OutOfFuel => False
  end.
Proof.
  intros WF. unfold toposort.
  pose proof (search_all_inv (seq 0 (node_count g)) WF _ _ empty_inv) as S.
  assert (L : forall i, In i (seq 0 (node_count g)) -> i < node_count g) by (intros i H; apply in_seq in H; lia).
  specialize (S L). clear L.
  destruct (search_all _ _ _ _ _) as [order|n|]; [|exists n; split; [auto|apply rt_refl]|contradiction].
  destruct S as (disc & I & _ & S).
  assert (O : forall x, In x order <-> x < node_count g).
  { intros x. split.
    - intros H. eapply disc_nodes; [exact I|]. now apply (fin_disc _ _ _ I).
    - intros H. destruct (in_dec Nat.eq_dec x order); auto. destruct (open_in_stack _ _ _ I x); auto.
      apply S, in_seq. lia. }
  pose proof (fin_nodup _ _ _ I) as ND.
  pose proof (check_components_spec order [] ND) as C.
  destruct (check_components g [] order) as [j|].
  - destruct C as (l1 & i & l2 & -> & E & N & _ & H). exists i. split; auto.
    assert (In j (l1 ++ i :: l2)) by (apply O; now apply WF in E).
    apply in_app_iff in H0 as [?|[?|Hj]]; [contradiction|congruence|].
    apply in_split in Hj as (l3 & l4 & ->).
    destruct (finish_order _ _ _ I (l1 ++ i :: l3) j l4) with (i := i) as [X|X]; auto.
    { now rewrite <- app_assoc. }
    apply NoDup_remove_2 in ND. destruct ND. apply in_app_iff. right. apply in_app_iff. right. now right.
  - split.
    + apply NoDup_Permutation; auto; [apply seq_NoDup|]. intros x. rewrite O, in_seq. lia.
    + intros a b E. assert (Hb : In b order) by (apply O; now apply WF in E).
      apply in_split in Hb as (l1 & l2 & ->). destruct (C l1 b l2 eq_refl a E) as [->|[[]|H]].
      * destruct (no_self _ _ _ I b); auto.
        apply S, in_seq. assert (b < node_count g) by now apply WF in E. lia.
      * apply in_split in H as (l3 & l4 & ->). exists l3, l4, l2. now rewrite <- app_assoc.
Qed.

(** ** The reported cycle *)

(** [walk_back path from]: [path] read backwards is a walk starting after [from]. *)
Fixpoint walk_back (from : nat) (path : list nat) : Prop :=
  match path with
  | [] => False
  | [x] => edge from x
  | x :: (y :: _) as r => edge y x /\ walk_back from r
  end.

Lemma walk_back_app from path node : walk_back node path -> edge from node -> walk_back from (path ++ [node]).
Proof.
  induction path as [|x path IH]; [contradiction|]. destruct path as [|y path]; simpl.
  - intros H E. now split.
  - intros [H1 H2] E. split; [auto|]. exact (IH H2 E).
Qed.

Definition loop fuel origin := fix loop (nodes seen : list nat) :=
  match nodes with
  | [] => Done (None, seen)
  | node :: nodes =>
      if Nat.eqb node origin then Done (Some [node], seen)
      else if mem node seen then loop nodes seen
      else
        match find_cycle fuel g origin node seen with
        | Done (Some path, seen) => Done (Some (path ++ [node]), seen)
        | Done (None, seen) => loop nodes seen
        | o => o
        end
  end.

Lemma find_cycle_step fuel origin parent seen :
  find_cycle (S fuel) g origin parent seen = loop fuel origin (neighbors g parent) (parent :: seen).
Proof. reflexivity. Qed.

Definition found (origin parent : nat) (seen path : list nat) : Prop :=
  walk_back parent path /\ exists rest, path = origin :: rest /\ NoDup path /\
  (forall x, In x rest -> ~ In x (parent :: seen)).

Lemma find_cycle_sound fuel : forall origin parent seen,
  match find_cycle fuel g origin parent seen with
  | Done (Some path, _) => found origin parent seen path
  | Done (None, seen') => incl (parent :: seen) seen' /\
      (forall v, In v seen' -> ~ In v seen -> forall s, edge v s -> s <> origin /\ In s seen')
  | _ => True
  end.
Proof.
  induction fuel as [|fuel IH]; intros origin parent seen; [exact Logic.I|].
  rewrite find_cycle_step.
  assert (G : forall nodes seen0, (forall s, In s nodes -> edge parent s) -> incl (parent :: seen) seen0 ->
    match loop fuel origin nodes seen0 with
    | Done (Some path, _) => found origin parent seen path
    | Done (None, seen') => incl seen0 seen' /\ (forall s, In s nodes -> s <> origin /\ In s seen') /\
        (forall v, In v seen' -> ~ In v seen0 -> forall s, edge v s -> s <> origin /\ In s seen')
    | _ => True
    end).
  { induction nodes as [|node nodes IHn]; intros seen0 Ed S0; cbn [loop].
    - split; [apply incl_refl|]. split; [intros s []|]. intros v H1 H2. contradiction.
    - destruct (Nat.eqb_spec node origin) as [->|NO].
      + split; [apply Ed; now left|]. exists []. split; [reflexivity|].
        split; [constructor; [intros []|constructor]|intros x []].
      + destruct (mem node seen0) eqn:M.
        * apply mem_spec in M. specialize (IHn seen0 (fun s Hs => Ed s (or_intror Hs)) S0).
          destruct (loop fuel origin nodes seen0) as [[[path|] seen']| |]; auto.
          destruct IHn as (H1 & H2 & H3). split; auto. split; auto. intros s [<-|Hs]; auto.
        * apply mem_false in M. specialize (IH origin node seen0).
          destruct (find_cycle fuel g origin node seen0) as [[[path|] seen1]| |]; auto.
          -- destruct IH as (W & rest & -> & ND & F). split.
             ++ apply walk_back_app; auto. apply Ed. now left.
             ++ exists (rest ++ [node]). split; [reflexivity|]. split.
                ** apply Permutation_NoDup with (node :: origin :: rest).
                   { apply Permutation_cons_append. }
                   constructor; auto. intros [<-|H]; [contradiction|]. apply (F node H). now left.
                ** intros x Hx. apply in_app_iff in Hx as [Hx|[<-|[]]].
                   --- intros H. apply (F x Hx). right. now apply S0.
                   --- intros H. apply M. now apply S0.
          -- destruct IH as (H1 & H2).
             assert (S1 : incl (parent :: seen) seen1) by (intros x Hx; apply H1; right; auto).
             specialize (IHn seen1 (fun s Hs => Ed s (or_intror Hs)) S1).
             destruct (loop fuel origin nodes seen1) as [[[path|] seen']| |]; auto.
             destruct IHn as (H3 & H4 & H5). split; [intros x Hx; apply H3, H1; now right|]. split.
             ++ intros s [<-|Hs]; auto. split; auto. apply H3, H1. now left.
             ++ intros v Hv Nv s Hs. destruct (in_dec Nat.eq_dec v seen1) as [V|V]; [|now apply (H5 v)].
                destruct (H2 v V Nv s Hs). split; auto. }
  specialize (G (neighbors g parent) (parent :: seen)
    (fun s Hs => proj1 (neighbors_spec parent s) Hs) (incl_refl _)).
  destruct (loop fuel origin _ _) as [[[path|] seen']| |]; auto.
  destruct G as (H1 & H2 & H3). split; auto. intros v Hv Nv s Hs.
  destruct (Nat.eq_dec v parent) as [->|NP].
  - apply H2. now apply neighbors_spec.
  - apply (H3 v); auto. intros [<-|?]; auto.
Qed.

Definition unseen (seen : list nat) : nat := length (filter (fun v => negb (mem v seen)) (seq 0 (node_count g))).
Lemma unseen_incl a b : incl a b -> unseen b <= unseen a.
Proof. intros H. apply filter_le. intros x. rewrite !negb_true_iff, !mem_false. auto. Qed.
Lemma unseen_cons x seen : x < node_count g -> ~ In x seen -> unseen (x :: seen) < unseen seen.
Proof.
  intros L N. apply filter_lt with x.
  - apply mem_cons_le.
  - apply in_seq. lia.
  - rewrite negb_false_iff, mem_spec. now left.
  - now rewrite negb_true_iff, mem_false.
Qed.

Lemma find_cycle_fuel fuel : well_formed -> forall origin parent seen,
  parent < node_count g -> ~ In parent seen -> unseen seen <= fuel ->
  exists r, find_cycle fuel g origin parent seen = Done r /\ incl seen (snd r).
Proof.
  intros WF. induction fuel as [|fuel IH]; intros origin parent seen L N U.
  { pose proof (unseen_cons parent seen L N). lia. }
  rewrite find_cycle_step.
  assert (G : forall nodes seen0, (forall s, In s nodes -> s < node_count g) -> incl (parent :: seen) seen0 ->
    exists r, loop fuel origin nodes seen0 = Done r /\ incl seen0 (snd r)).
  { induction nodes as [|node nodes IHn]; intros seen0 Ls S0; cbn [loop].
    - eexists. split; [reflexivity|apply incl_refl].
    - destruct (Nat.eqb node origin); [eexists; split; [reflexivity|apply incl_refl]|].
      destruct (mem node seen0) eqn:M; [apply IHn; auto; intros s Hs; apply Ls; now right|].
      apply mem_false in M.
      destruct (IH origin node seen0) as ([[path|] seen1] & -> & S1); auto.
      + apply Ls. now left.
      + pose proof (unseen_cons parent seen L N). pose proof (unseen_incl _ _ S0). lia.
      + eexists. split; [reflexivity|]. exact S1.
      + destruct (IHn seen1) as (r & -> & S2); auto.
        * intros s Hs; apply Ls; now right.
        * intros x Hx. apply S1; auto.
        * exists r. split; auto. intros x Hx. apply S2, S1, Hx. }
  destruct (G (neighbors g parent) (parent :: seen)) as (r & -> & S1).
  - intros s Hs. apply neighbors_spec in Hs. now apply WF in Hs.
  - apply incl_refl.
  - exists r. split; auto. intros x Hx. apply S1. now right.
Qed.

Theorem find_cycle_complete origin m : well_formed -> edge origin m -> reach m origin ->
  exists path seen, find_cycle (S (node_count g)) g origin origin [] = Done (Some path, seen)
    /\ found origin origin [] path.
Proof.
  intros WF E R. 
  assert (L : origin < node_count g) by now apply WF in E.
  destruct (find_cycle_fuel (S (node_count g)) WF origin origin []) as ([[path|] seen] & Eq & _); auto.
  { unfold unseen. pose proof (filter_short (fun v => negb (mem v [])) (seq 0 (node_count g))) as H.
    rewrite seq_length in H. lia. }
  - exists path, seen. split; auto. pose proof (find_cycle_sound (S (node_count g)) origin origin []) as F.
    now rewrite Eq in F.
  - exfalso. pose proof (find_cycle_sound (S (node_count g)) origin origin []) as F. rewrite Eq in F.
    destruct F as [F1 F2].
    assert (F3 : forall v, In v seen -> forall s, edge v s -> s <> origin /\ In s seen) by (intros v Hv; apply F2; auto).
    apply clos_rt_rt1n in R.
    assert (Ho : In origin seen) by (apply F1; now left).
    assert (M : forall m', clos_refl_trans_1n _ edge m' origin -> In m' seen -> m' <> origin -> False).
    { intros m' R'. remember origin as t eqn:Et. induction R' as [|x y z E' R' IH]; intros V NE; subst; [congruence|].
      destruct (F3 x V y E'). apply IH; auto. }
    destruct (F3 origin Ho m E). now apply (M m).
Qed.
End Graph.

(** ** Names *)
Lemma index_from_spec names : forall i name, NoDup names -> forall k,
  index_from i names name = Some k <-> i <= k /\ nth_error names (k - i) = Some name.
Proof.
  induction names as [|n names IH]; intros i name ND k; simpl.
  - split; [discriminate|]. intros [_ H]. destruct (k - i); discriminate.
  - inversion ND as [|? ? NI ND']; subst.
    destruct (index_from (S i) names name) as [j|] eqn:E.
    + apply IH in E as [Lj Ej]; auto.
      assert (In name names) by now apply nth_error_In in Ej.
      split.
      * intros [= <-]. split; [lia|]. replace (j - i) with (S (j - S i)) by lia. exact Ej.
      * intros [Lk Ek]. destruct (k - i) as [|d] eqn:D; simpl in Ek; [congruence|].
        f_equal. assert (d = j - S i); [|lia]. eapply NoDup_nth_error; eauto; [|congruence].
        apply nth_error_Some. congruence.
    + assert (NN : ~ In name names).
      { intros H. apply In_nth_error in H as [d H]. enough (index_from (S i) names name = Some (S i + d)) by congruence.
        apply IH; auto. split; [lia|]. now replace (S i + d - S i) with d by lia. }
      destruct (text_eqb n name) eqn:Q.
      * apply text_eqb_eq in Q as ->. split.
        -- intros [= <-]. split; [lia|]. now rewrite Nat.sub_diag.
        -- intros [L H]. destruct (k - i) as [|d] eqn:D; simpl in H; [f_equal; lia|].
           apply nth_error_In in H. contradiction.
      * split; [discriminate|]. intros [L H]. destruct (k - i) as [|d]; simpl in H.
        -- injection H as ->. rewrite text_eqb_refl in Q. discriminate.
        -- apply nth_error_In in H. contradiction.
Qed.

Section Inputs.
Context (inputs : list (text * list text)) (ND : NoDup (map fst inputs)).
Let g := build_graph inputs.
Let name := value_of inputs.

Lemma index_of_spec n k : index_of inputs n = Some k <-> nth_error (map fst inputs) k = Some n.
Proof. unfold index_of. rewrite index_from_spec by auto. rewrite Nat.sub_0_r. split; [tauto|]. split; [lia|auto]. Qed.

Lemma name_spec k : k < length inputs -> nth_error (map fst inputs) k = Some (name k).
Proof. intros H. apply nth_error_nth'. now rewrite map_length. Qed.
Lemma name_inj a b : a < length inputs -> b < length inputs -> name a = name b -> a = b.
Proof.
  intros La Lb E. eapply NoDup_nth_error; eauto; [now rewrite map_length|].
  rewrite !name_spec by auto. congruence.
Qed.
Lemma index_name k : k < length inputs -> index_of inputs (name k) = Some k.
Proof. intros H. apply index_of_spec. now apply name_spec. Qed.

Lemma edge_imports a b : edge g a b <->
  a < length inputs /\ b < length inputs /\ imports inputs (name a) (name b).
Proof.
  unfold edge, g. cbn [edges build_graph]. rewrite in_flat_map. split.
  - intros ([m deps] & Hm & H). unfold input_edges in H. cbn [fst snd] in H.
    destruct (index_of inputs m) as [from|] eqn:Em; [|destruct H].
    apply in_flat_map in H as (d & Hd & H). destruct (index_of inputs d) as [to|] eqn:Ed; [|destruct H].
    destruct H as [[= -> ->]|[]]. apply index_of_spec in Em, Ed.
    assert (La : a < length inputs) by (rewrite <- (map_length fst); apply nth_error_Some; congruence).
    assert (Lb : b < length inputs) by (rewrite <- (map_length fst); apply nth_error_Some; congruence).
    rewrite name_spec in Em, Ed by auto. injection Em as <-. injection Ed as <-.
    repeat split; auto. exists deps. repeat split; auto. eapply nth_error_In. now apply name_spec.
  - intros (La & Lb & deps & H1 & H2 & H3). exists (name a, deps). split; auto.
    unfold input_edges. cbn [fst snd]. rewrite index_name by auto. apply in_flat_map. exists (name b).
    split; auto. rewrite index_name by auto. now left.
Qed.

Lemma graph_well_formed : well_formed g.
Proof. intros a b H. apply edge_imports in H as (La & Lb & _). now split. Qed.

Lemma imports_edge m d : imports inputs m d -> exists a b, edge g a b /\ name a = m /\ name b = d.
Proof.
  intros H. pose proof H as (deps & H1 & H2 & H3).
  apply (in_map fst) in H1. simpl in H1. apply In_nth_error in H1 as [a Ha]. apply In_nth_error in H3 as [b Hb].
  assert (La : a < length inputs) by (rewrite <- (map_length fst); apply nth_error_Some; congruence).
  assert (Lb : b < length inputs) by (rewrite <- (map_length fst); apply nth_error_Some; congruence).
  rewrite name_spec in Ha, Hb by auto. injection Ha as <-. injection Hb as <-.
  exists a, b. split; auto. apply edge_imports. auto.
Qed.

Lemma map_nth_seq : map name (seq 0 (length inputs)) = map fst inputs.
Proof.
  unfold name, value_of. rewrite <- (map_length fst). generalize (map fst inputs). intros l.
  apply nth_ext with (d := []) (d' := []); [now rewrite map_length, seq_length|].
  intros k Hk. rewrite map_length, seq_length in Hk.
  rewrite nth_indep with (d' := nth 0 l []) by now rewrite map_length, seq_length.
  rewrite (map_nth (fun i => nth i l [])). now rewrite seq_nth.
Qed.

Lemma walk_back_loop first path : (forall x, In x path -> x < length inputs) -> first < length inputs ->
  walk_back g first path -> imported_by_next (imports inputs) (name first) (map name path).
Proof.
  induction path as [|x path IH]; intros L F; [contradiction|].
  destruct path as [|y path]; simpl.
  - intros E. now apply edge_imports in E.
  - intros [E W]. split; [now apply edge_imports in E|]. apply IH; auto. intros z Hz. apply L. now right.
Qed.

Lemma walk_back_nodes first path : walk_back g first path -> forall x, In x path -> x < length inputs.
Proof.
  induction path as [|x path IH]; [contradiction|]. destruct path as [|y path]; simpl.
  - intros E z [<-|[]]. now apply graph_well_formed in E.
  - intros [E W] z [<-|Hz]; [now apply graph_well_formed in E|]. apply IH; auto.
Qed.

Theorem toposort_deps_spec :
  match toposort_deps inputs with
  | inl order => Permutation order (map fst inputs) /\
      forall m d, imports inputs m d -> comes_before d m order
  | inr (Cycle l) => import_loop inputs l
  | inr NoFuel => False
  end.
Proof.
  unfold toposort_deps. fold g. pose proof (toposort_spec g graph_well_formed) as T.
  destruct (toposort g) as [order|n|]; [| |contradiction].
  - destruct T as [P O]. change (node_count g) with (length inputs) in P. fold name. split.
    + rewrite <- Permutation_rev. rewrite (Permutation_map name P). now rewrite map_nth_seq.
    + intros m d H. apply imports_edge in H as (a & b & E & <- & <-).
      destruct (O a b E) as (l1 & l2 & l3 & ->). fold name.
      exists (rev (map name l3)), (rev (map name l2)), (rev (map name l1)).
      rewrite !map_app. cbn [map]. rewrite map_app. cbn [map].
      rewrite !rev_app_distr. simpl. rewrite !rev_app_distr. simpl. now rewrite <- !app_assoc.
  - destruct T as (m & E & R). unfold import_cycle.
    destruct (find_cycle_complete g n m graph_well_formed E R) as (path & seen & -> & W & rest & -> & N & _).
    fold name. split.
    + pose proof (walk_back_nodes _ _ W) as L. revert N L. generalize (n :: rest). intros l.
      clear - ND. induction l as [|x l IH]; intros N L; [constructor|]. inversion N; subst. cbn [map]. constructor.
      * rewrite in_map_iff. intros (y & Ey & Hy). apply name_inj in Ey; [subst; contradiction| |]; apply L; simpl; auto.
      * apply IH; auto. intros y Hy. apply L. now right.
    + apply (walk_back_loop n (n :: rest)); auto.
      * apply (walk_back_nodes _ _ W).
      * now apply graph_well_formed in E.
Qed.
End Inputs.
