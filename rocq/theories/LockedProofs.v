(** Proofs about locked packages. *)
From Coq Require Import NArith Arith Bool List Lia Relations.
From Verif Require Import Text TextProofs Version ResolveSpec ResolveProofs Locked LockedSpec.
Import ListNotations.
Local Open Scope nat_scope.
Local Open Scope list_scope.

Lemma has_in n l : has n l = true <-> In n l.
Proof.
  unfold has. rewrite existsb_exists. split.
  - intros (x & I & E). apply text_eqb_eq in E. now subst.
  - intros I. exists n. split; auto. apply text_eqb_refl.
Qed.

(** ** [collect] *)
Lemma collect_snoc {A} (l : list (text * A)) k a : collect (l ++ [(k, a)]) = insert k a (collect l).
Proof. unfold collect. now rewrite fold_left_app. Qed.

Lemma collect_map {A} (l : list (text * A)) : is_map (collect l).
Proof.
  induction l as [|[k a] l IH] using rev_ind; [constructor|]. rewrite collect_snoc. now apply insert_map.
Qed.

Lemma in_collect {A} (l : list (text * A)) k a :
  In (k, a) (collect l) <-> exists before after, l = before ++ (k, a) :: after /\ ~ In k (map fst after).
Proof.
  revert k a. induction l as [|[j b] l IH] using rev_ind; intros k a.
  - cbn. split; [tauto|]. intros (x & y & E & _). now destruct x.
  - rewrite collect_snoc, in_insert, IH. split.
    + intros [[-> ->]|(N & x & y & -> & I)].
      * exists l, []. cbn. auto.
      * exists x, (y ++ [(j, b)]). split; [now rewrite <- app_assoc|]. rewrite map_app, in_app_iff. cbn. intuition.
    + intros (x & y & E & I). destruct y as [|e y] using rev_ind.
      * apply app_inj_tail in E as [_ [= -> ->]]. now left.
      * clear IHy. rewrite app_comm_cons, app_assoc in E. apply app_inj_tail in E as [-> <-].
        rewrite map_app, in_app_iff in I. cbn in I. right. split; [intuition|]. exists x, y. intuition.
Qed.

Lemma get_collect {A} (l : list (text * A)) k a :
  get k (collect l) = Some a <-> exists before after, l = before ++ (k, a) :: after /\ ~ In k (map fst after).
Proof. rewrite <- in_collect. apply get_iff, collect_map. Qed.

Lemma map_split {A B} (f : A -> B) l x b a : map f l = b ++ x :: a ->
  exists b' x' a', l = b' ++ x' :: a' /\ map f b' = b /\ f x' = x /\ map f a' = a.
Proof.
  revert b. induction l as [|y l IH]; intros b E.
  - now destruct b.
  - destruct b as [|z b]; cbn in E.
    + injection E as E1 E2. exists [], y, l. auto.
    + injection E as E1 E2. destruct (IH _ E2) as (b' & x' & a' & -> & F & G & H).
      exists (y :: b'), x', a'. cbn. rewrite F, E1. auto.
Qed.

Lemma get_listed {A} (f : package -> A) m k a :
  get k (collect (map (fun p => (name p, f p)) (packages m))) = Some a
  <-> exists p, listed m p /\ name p = k /\ f p = a.
Proof.
  rewrite get_collect. split.
  - intros (b & c & E & N). apply map_split in E as (b' & p & c' & E & _ & [= <- <-] & <-).
    exists p. split; auto. exists b', c'. split; auto. intros q I Q. apply N. rewrite map_map.
    apply in_map_iff. now exists q.
  - intros (p & (b & c & E & N) & <- & <-). rewrite E, map_app. cbn.
    exists (map (fun p => (name p, f p)) b), (map (fun p => (name p, f p)) c). split; auto.
    rewrite map_map. intros I. apply in_map_iff in I as (q & Q & I). now apply (N q I).
Qed.

Lemma listed_in m p : listed m p -> In p (packages m).
Proof. intros (b & a & -> & _). apply in_app_iff. right. now left. Qed.

Lemma in_listed m p : NoDup (map name (packages m)) -> In p (packages m) -> listed m p.
Proof.
  intros N I. apply in_split in I as (b & a & E). exists b, a. split; auto.
  rewrite E, map_app in N. cbn in N. apply NoDup_remove_2 in N. intros q Q F.
  apply N, in_app_iff. right. rewrite <- F. now apply in_map.
Qed.

Lemma listed_unique m p q : listed m p -> listed m q -> name p = name q -> p = q.
Proof.
  intros P Q E.
  assert (A : get (name p) (collect (map (fun p => (name p, p)) (packages m))) = Some p)
    by (apply (get_listed (fun p => p)); eauto).
  assert (B : get (name p) (collect (map (fun p => (name p, p)) (packages m))) = Some q)
    by (apply (get_listed (fun p => p)); eauto).
  congruence.
Qed.

Lemma some_listed m p : In p (packages m) -> exists q, listed m q /\ name q = name p.
Proof.
  intros I. set (l := map (fun p => (name p, p)) (packages m)).
  destruct (get (name p) (collect l)) as [q|] eqn:G.
  - apply (get_listed (fun p => p)) in G as (q' & L & E & _). eauto.
  - apply get_none in G. destruct G. apply in_map_iff. clear - I.
    unfold l. clear l. revert I. generalize (packages m). intros ps. induction ps as [|q ps IH] using rev_ind; [intros []|].
    intros I. rewrite map_app. cbn [map]. rewrite collect_snoc. destruct (text_eqb (name q) (name p)) eqn:E.
    + apply text_eqb_eq in E. exists (name q, q). split; auto. apply in_insert. now left.
    + apply text_eqb_neq in E. apply in_app_iff in I as [I|[<-|[]]]; [|easy].
      destruct (IH I) as ((j & r) & F & J). cbn in F. subst j. exists (name p, r). split; auto.
      apply in_insert. right. split; auto.
Qed.

(** ** The tree *)
Section Tree.
Context (L : list (text * list text)).
Definition edge (a b : text) : Prop := exists deps, get a L = Some deps /\ In b deps.
Definition reach := clos_refl_trans_1n text edge.

Fixpoint fits (stack : nat) (n : text) : bool :=
  match stack with
  | O => false
  | S stack => match get n L with None => true | Some deps => forallb (fits stack) deps end
  end.

Lemma tree_fits stack fresh n : record_tree_fresh stack L fresh n = None <-> fits stack n = false.
Proof.
  revert fresh n. induction stack as [|stack IH]; intros fresh n; cbn; [tauto|].
  destruct (get n L) as [deps|]; [|easy].
  generalize (n :: fresh). clear fresh. induction deps as [|d deps IHd]; intros fresh; cbn; [easy|].
  specialize (IH fresh d). destruct (record_tree_fresh stack L fresh d) as [fresh'|].
  - destruct (fits stack d); [apply IHd|]. exfalso. discriminate (proj2 IH eq_refl).
  - rewrite (proj1 IH eq_refl). cbn. split; auto. intros _. clear. now induction deps.
Qed.

Lemma tree_reach stack : forall fresh n f, record_tree_fresh stack L fresh n = Some f ->
  forall x, In x f <-> In x fresh \/ reach n x.
Proof.
  induction stack as [|stack IH]; [discriminate|]. intros fresh n f. cbn [record_tree_fresh].
  destruct (get n L) as [deps|] eqn:G.
  - assert (A : forall deps fresh f,
      fold_left (fun fresh n => match fresh with Some fresh => record_tree_fresh stack L fresh n | None => None end)
        deps (Some fresh) = Some f -> forall x, In x f <-> In x fresh \/ exists d, In d deps /\ reach d x).
    { clear - IH. induction deps as [|d deps IHd]; intros fresh f; cbn.
      - intros [= ->] x. split; auto. intros [I|(d & [] & _)]; auto.
      - destruct (record_tree_fresh stack L fresh d) as [f'|] eqn:E.
        + intros F x. rewrite (IHd _ _ F), (IH _ _ _ E). split.
          * intros [[I|R]|(e & I & R)]; eauto.
          * intros [I|(e & [<-|I] & R)]; eauto.
        + clear. intros H. exfalso. induction deps; auto. discriminate. }
    intros F x. rewrite (A _ _ _ F). cbn. split.
    + intros [[<-|I]|(d & I & R)]; auto; right; [constructor|].
      econstructor 2; [exists deps; split; eauto|exact R].
    + intros [I|R]; auto. inversion R as [|y z (deps' & G' & I) R']; subst; auto.
      rewrite G in G'. injection G' as <-. eauto.
  - intros [= <-] x. cbn. split.
    + intros [<-|I]; auto. right. constructor.
    + intros [I|R]; auto. inversion R as [|y z (deps & G' & _) _]; subst; auto. congruence.
Qed.

Lemma fits_edge stack a b : fits stack a = true -> edge a b -> exists stack', stack = S stack' /\ fits stack' b = true.
Proof.
  intros F (deps & G & I). destruct stack as [|stack]; [discriminate|]. exists stack. split; auto.
  cbn in F. rewrite G, forallb_forall in F. auto.
Qed.

Lemma fits_plus a b : clos_trans_1n text edge a b -> forall stack, fits stack a = true ->
  exists stack', stack' < stack /\ fits stack' b = true.
Proof.
  induction 1 as [a b E|a b c E P IH]; intros stack F; destruct (fits_edge _ _ _ F E) as (s & -> & F').
  - exists s. auto.
  - destruct (IH _ F') as (s' & Lt & F''). exists s'. split; [lia|auto].
Qed.

Lemma fits_no_loop a : clos_trans_1n text edge a a -> forall stack, fits stack a = false.
Proof.
  intros P stack. induction stack as [stack IH] using lt_wf_ind. destruct (fits stack a) eqn:F; auto.
  destruct (fits_plus _ _ P _ F) as (s & Lt & F'). now rewrite (IH s Lt) in F'.
Qed.

Lemma fits_reach a b : reach a b -> forall stack, fits stack a = true -> exists stack', fits stack' b = true.
Proof.
  induction 1 as [a|a b c E P IH]; intros stack F; eauto.
  destruct (fits_edge _ _ _ F E) as (s & -> & F'). eauto.
Qed.

(** A path of as many steps as the stack is deep. *)
Fixpoint steps (a : text) (l : list text) : Prop :=
  match l with [] => True | b :: l => edge a b /\ steps b l end.
Lemma deep stack n : fits stack n = false -> exists l, length l = stack /\ steps n l.
Proof.
  revert n. induction stack as [|stack IH]; intros n F; [exists []; cbn; auto|].
  cbn in F. destruct (get n L) as [deps|] eqn:G; [|discriminate].
  assert (exists d, In d deps /\ fits stack d = false) as (d & I & F').
  { clear - F. induction deps as [|d deps IH]; [discriminate|]. cbn in F. destruct (fits stack d) eqn:E.
    - destruct (IH F) as (e & I & J). exists e. cbn. auto.
    - exists d. cbn. auto. }
  destruct (IH d F') as (l & Le & S). exists (d :: l). cbn. rewrite Le. split; auto. split; auto. exists deps. auto.
Qed.

Lemma steps_app a l1 b l2 : steps a (l1 ++ b :: l2) -> clos_trans_1n text edge a b /\ steps b l2.
Proof.
  revert a. induction l1 as [|c l1 IH]; intros a; cbn.
  - intros [E S]. split; auto. now constructor.
  - intros [E S]. destruct (IH _ S) as [P S']. split; auto. now econstructor 2; [exact E|].
Qed.

Lemma reach_plus a b : clos_trans_1n text edge a b -> reach a b.
Proof.
  induction 1 as [a b E|a b c E P IH]; [|econstructor 2; eauto]. econstructor 2; [exact E|constructor].
Qed.

Lemma text_dec (a b : text) : {a = b} + {a <> b}.
Proof. apply list_eq_dec, N.eq_dec. Qed.

Lemma repeated (l : list text) : ~ NoDup l -> exists a x b c, l = a ++ x :: b ++ x :: c.
Proof.
  induction l as [|y l IH]; intros N; [destruct N; constructor|].
  destruct (in_dec text_dec y l) as [I|I].
  - apply in_split in I as (b & c & ->). exists [], y, b, c. auto.
  - destruct IH as (a & x & b & c & ->); [|exists (y :: a), x, b, c; auto].
    intros ND. apply N. now constructor.
Qed.

Lemma steps_dom a l : steps a l -> l <> [] -> In a (map fst L) /\ forall x, In x (removelast l) -> In x (map fst L).
Proof.
  assert (D : forall a b, edge a b -> In a (map fst L)).
  { intros x y (deps & G & _). apply get_in in G. apply in_map_iff. now exists (x, deps). }
  revert a. induction l as [|b l IH]; [easy|]. intros a [E S] _. split; [eauto|]. intros x.
  destruct l as [|c l]; [intros []|]. destruct (IH b S) as [I J]; [easy|].
  change (removelast (b :: c :: l)) with (b :: removelast (c :: l)). cbn [In]. intros [<-|K]; auto.
Qed.

Lemma loops_if_deep stack n : length L < stack -> fits stack n = false ->
  exists x, reach n x /\ clos_trans_1n text edge x x.
Proof.
  intros Lt F. destruct (deep _ _ F) as (l & Le & St).
  assert (l <> []) as NE by (intros ->; cbn in Le; lia).
  destruct (steps_dom _ _ St NE) as [I J].
  assert (R : ~ NoDup (n :: removelast l)).
  { intros ND. assert (incl (n :: removelast l) (map fst L)) as Inc by (intros x [<-|K]; auto).
    apply (NoDup_incl_length ND) in Inc. rewrite map_length in Inc. cbn [length] in Inc.
    assert (length l = S (length (removelast l))).
    { rewrite (app_removelast_last n NE) at 1. rewrite app_length. cbn. lia. }
    lia. }
  apply repeated in R as (a & x & b & c & E).
  assert (S' : forall l', l = l' ++ [last l n] -> steps n (l' ++ [last l n])) by (intros l' <-; exact St).
  specialize (S' _ (app_removelast_last n NE)). generalize dependent (removelast l). intros l' _ E S'.
  destruct a as [|y a]; cbn in E; injection E as -> E; subst l'.
  - exists x. split; [constructor|]. rewrite <- app_assoc in S'. cbn in S'.
    now apply steps_app in S' as [P _].
  - exists x. rewrite <- app_assoc in S'. cbn in S'. apply steps_app in S' as [P S'].
    split; [now apply reach_plus|]. rewrite <- app_assoc in S'. cbn in S'. now apply steps_app in S' as [P' _].
Qed.
End Tree.

(** ** Requirements *)
Lemma path_eqb_eq a b : path_eqb a b = true <-> a = b.
Proof.
  destruct a, b; cbn; try easy. rewrite text_eqb_eq. split; [now intros ->|now intros [= ->]].
Qed.

Lemma requirement_eqb_same a b : requirement_eqb a b = true <-> same a b.
Proof.
  split.
  - destruct a, b; cbn; try discriminate.
    + rewrite text_eqb_eq. intros ->. constructor.
    + rewrite text_eqb_eq. intros ->. constructor 2.
    + rewrite !andb_true_iff, !text_eqb_eq, path_eqb_eq. intros [[-> ->] ->]. constructor 2.
  - intros [s x y|r]; [apply text_eqb_refl|]. destruct r; cbn; rewrite ?text_eqb_refl; auto.
    cbn. now apply path_eqb_eq.
Qed.

Lemma same_sym a b : same a b -> same b a.
Proof. intros [s x y|r]; constructor. Qed.

Lemma add_direct_spec l : forall deps, is_map deps ->
  match add_direct deps l with
  | inl d => is_map d /\ (forall n r, In (n, r) d <-> In (n, r) deps \/ In (n, r) l)
      /\ NoDup (map fst l) /\ (forall n, In n (map fst l) -> ~ In n (map fst deps))
  | inr n => exists a r b, l = a ++ (n, r) :: b /\ (In n (map fst deps) \/ In n (map fst a))
  end.
Proof.
  induction l as [|[n r] l IH]; intros deps M; cbn [add_direct].
  - split; auto. split; [cbn; tauto|]. split; [constructor|intros ? []].
  - destruct (contains_key n deps) eqn:C.
    + apply contains_key_spec in C. exists [], r, l. auto.
    + assert (N : ~ In n (map fst deps)).
      { intros I. apply contains_key_spec in I. congruence. }
      specialize (IH (insert n r deps) (insert_map _ _ _ M)).
      assert (K : forall j, In j (map fst (insert n r deps)) <-> j = n \/ In j (map fst deps)).
      { intros j. rewrite !in_map_iff. split.
        - intros ((j' & a) & <- & I). apply in_insert in I as [[-> _]|[_ I]]; auto. right. exists (j', a). auto.
        - intros [->|((j' & a) & <- & I)]; [exists (n, r)|exists (j', a)]; split; auto; apply in_insert; auto.
          right. split; auto. cbn. intros ->. apply N, in_map_iff. exists (n, a). auto. }
      destruct (add_direct (insert n r deps) l) as [d|j].
      * destruct IH as (A & B & D & E). split; auto. split; [|split].
        -- intros j s. rewrite B, in_insert. cbn [In]. split.
           ++ intros [[[-> ->]|[_ I]]|I]; auto.
           ++ intros [I|[[= -> ->]|I]]; auto. left. right. split; auto. intros ->.
              apply N, in_map_iff. exists (n, s). auto.
        -- cbn. constructor; auto. intros I. apply (E n I), K. auto.
        -- intros j. cbn. intros [<-|I]; auto. intros J. apply (E j I), K. auto.
      * destruct IH as (a & s & b & -> & H). exists ((n, r) :: a), s, b. split; auto. cbn.
        rewrite K in H. intuition.
Qed.

(** ** Locking *)
Definition tree (m : manifest) : list (text * list text) :=
  collect (map (fun p => (name p, package_requirements p)) (packages m)).

Lemma edge_listed m a b : edge (tree m) a b <-> exists p, listed m p /\ name p = a /\ In b (package_requirements p).
Proof.
  unfold edge, tree. split.
  - intros (deps & G & I). apply get_listed in G as (p & Li & <- & <-). eauto.
  - intros (p & Li & <- & I). exists (package_requirements p). split; auto. apply get_listed. eauto.
Qed.

Lemma reach_snoc m a b c : reach (tree m) a b -> edge (tree m) b c -> reach (tree m) a c.
Proof.
  intros R E. induction R as [a|a b d E' R IH].
  - eapply Relation_Operators.rt1n_trans; [exact E|constructor].
  - eapply Relation_Operators.rt1n_trans; [exact E'|]. now apply IH.
Qed.

Lemma needed_reach m roots x : needed m roots x <-> exists n, roots n /\ reach (tree m) n x.
Proof.
  split.
  - induction 1 as [n R|p n N (k & R & P) Li I].
    + exists n. split; auto. constructor.
    + exists k. split; auto. eapply reach_snoc; eauto. apply edge_listed. eauto.
  - intros (n & R & P). assert (N : needed m roots n) by now constructor. clear R.
    induction P as [a|a b c E P IH]; auto. apply IH. apply edge_listed in E as (p & Li & <- & I).
    eapply needed_by; eauto.
Qed.

Lemma requires_plus m a b : requires m a b <-> clos_trans_1n text (edge (tree m)) a b.
Proof.
  rewrite <- clos_trans_t1n_iff. split.
  - induction 1; [constructor; apply edge_listed; eauto|]. econstructor 2; eauto.
  - induction 1 as [a b E|]; [|econstructor 2; eauto]. apply edge_listed in E as (p & Li & <- & I).
    now constructor.
Qed.

Lemma record_unchanged_spec stack Lk old reqs : forall fresh,
  match record_unchanged stack Lk old fresh reqs with
  | Some f => (forall x, In x f <-> In x fresh \/ exists n r r', In (n, r) reqs /\ get n old = Some r' /\ same r r' /\ reach Lk n x)
      /\ forall n r r', In (n, r) reqs -> get n old = Some r' -> same r r' -> fits Lk stack n = true
  | None => exists n r r', In (n, r) reqs /\ get n old = Some r' /\ same r r' /\ fits Lk stack n = false
  end.
Proof.
  induction reqs as [|[n r] reqs IH]; intros fresh; cbn [record_unchanged].
  - split; [|intros ? ? ? []]. intros x. split; auto. intros [I|(n & r & r' & [] & _)]. auto.
  - assert (T : match get n old with Some r' => requirement_eqb r' r | None => false end = true
        <-> exists r', get n old = Some r' /\ same r r').
    { destruct (get n old) as [r'|].
      - rewrite requirement_eqb_same. split; [|intros (? & [= <-] & ?); now apply same_sym].
        intros S. exists r'. split; auto. now apply same_sym.
      - split; [discriminate|]. now intros (? & ? & _). }
    destruct (match get n old with Some r' => requirement_eqb r' r | None => false end) eqn:E.
    + destruct (proj1 T eq_refl) as (r' & G & S). destruct (record_tree_fresh stack Lk fresh n) as [f|] eqn:F.
      * pose proof (tree_reach Lk _ _ _ _ F) as R.
        assert (Fi : fits Lk stack n = true).
        { destruct (fits Lk stack n) eqn:X; auto. apply (tree_fits Lk stack fresh) in X. congruence. }
        specialize (IH f). destruct (record_unchanged stack Lk old f reqs) as [f'|].
        -- destruct IH as [A B]. split.
           ++ intros x. rewrite A, R. cbn [In]. split.
              ** intros [[I|I]|(j & s & s' & I & J & K & M)]; auto.
                 --- right. exists n, r, r'. auto.
                 --- right. exists j, s, s'. auto.
              ** intros [I|(j & s & s' & [[= <- <-]|I] & J & K & M)]; auto. right. exists j, s, s'. auto.
           ++ intros j s s' [[= <- <-]|I]; eauto.
        -- destruct IH as (j & s & s' & I & H). exists j, s, s'. split; [now right|auto].
      * exists n, r, r'. split; [now left|]. split; auto. split; auto. now apply tree_fits in F.
    + assert (NS : forall r', get n old = Some r' -> same r r' -> False).
      { intros r' G S. assert (false = true) by (apply T; eauto). discriminate. }
      specialize (IH fresh). destruct (record_unchanged stack Lk old fresh reqs) as [f'|].
      * destruct IH as [A B]. split.
        -- intros x. rewrite A. cbn [In]. split.
           ++ intros [I|(j & s & s' & I & H)]; auto. right. exists j, s, s'. auto.
           ++ intros [I|(j & s & s' & [[= <- <-]|I] & J & K & M)]; auto; [exfalso; eauto|]. right. exists j, s, s'. auto.
        -- intros j s s' [[= <- <-]|I] J K; [exfalso; eauto|eauto].
      * destruct IH as (j & s & s' & I & H). exists j, s, s'. split; [now right|auto].
Qed.

(** Said of the requirements given to the function. *)
Definition kept_requirement (reqs : list (text * requirement)) (m : manifest) (n : text) : Prop :=
  exists r r', In (n, r) reqs /\ In (n, r') (manifest_requirements m) /\ same r r'.

Lemma tree_length m : length (tree m) <= length (packages m).
Proof.
  unfold tree. rewrite <- (map_length (fun p => (name p, package_requirements p)) (packages m)).
  generalize (map (fun p => (name p, package_requirements p)) (packages m)). intros l.
  induction l as [|[k a] l IH] using rev_ind; auto. rewrite collect_snoc, app_length. cbn [length Resolve.insert].
  unfold Resolve.insert. cbn [length]. assert (length (Resolve.remove k (collect l)) <= length (collect l)); [|lia].
  unfold Resolve.remove. generalize (collect l). intros l'. induction l' as [|e l' IH']; cbn; auto.
  destruct (negb _); cbn; lia.
Qed.

Lemma last_of_filter (g : package -> bool) ps b p c q x y : filter g ps = b ++ p :: c -> ps = x ++ q :: y ->
  (forall z, In z y -> name z <> name q) -> g q = true -> name q = name p -> In q (p :: c).
Proof.
  intros E -> N G En. rewrite filter_app in E. cbn [filter] in E. rewrite G in E.
  assert (NP : forall z, In z (filter g y) -> name z <> name p).
  { intros z Z Ez. apply filter_In in Z as [Z _]. apply (N z Z). congruence. }
  revert E. generalize (filter g x). intros l. revert b. induction l as [|w l IH]; intros b E.
  - destruct b as [|w b]; cbn in E; injection E as E1 E2; [left; auto|].
    exfalso. apply (NP p); auto. rewrite E2. apply in_app_iff. right. now left.
  - destruct b as [|w' b]; cbn in E; injection E as E1 E2; [|eauto].
    right. rewrite <- E2. apply in_app_iff. right. now left.
Qed.

Lemma fresh_and_locked_spec stack reqs m : is_map (manifest_requirements m) ->
  match fresh_and_locked stack reqs m with
  | Some l => is_map l
      /\ (forall n v, In (n, v) l <-> exists p, listed m p /\ name p = n /\ at_version p = v
            /\ needed m (kept_requirement reqs m) n /\ ~ (In n (map fst reqs) /\ ~ recorded m n))
      /\ ~ exists n, needed m (kept_requirement reqs m) n /\ requires m n n
  | None => length (packages m) < stack -> exists n, needed m (kept_requirement reqs m) n /\ requires m n n
  end.
Proof.
  intros M. unfold fresh_and_locked. fold (tree m).
  pose proof (record_unchanged_spec stack (tree m) (manifest_requirements m) reqs []) as R.
  assert (K : forall n r', get n (manifest_requirements m) = Some r' <-> In (n, r') (manifest_requirements m))
    by (intros; now apply get_iff).
  destruct (record_unchanged stack (tree m) (manifest_requirements m) [] reqs) as [f|].
  - destruct R as [A B]. split; [apply collect_map|]. split.
    + assert (F : forall x, In x f <-> needed m (kept_requirement reqs m) x).
      { intros x. rewrite A, needed_reach. unfold kept_requirement. split.
        - intros [[]|(n & r & r' & I & G & S & P)]. exists n. split; auto. exists r, r'. rewrite <- K. auto.
        - intros (n & (r & r' & I & G & S) & P). right. exists n, r, r'. rewrite K. auto. }
      intros n v. rewrite in_collect. split.
      * intros (b & c & E & N). apply map_split in E as (b' & p & c' & E & _ & [= <- <-] & <-).
        assert (I : In p (filter (fun p => negb (contains_key (name p) reqs && negb (contains_key (name p) (manifest_requirements m))) && has (name p) f) (packages m)))
          by (rewrite E; apply in_app_iff; right; now left).
        apply filter_In in I as [I C]. apply andb_true_iff in C as [C D]. apply has_in, F in D.
        destruct (some_listed _ _ I) as (q & Q & En).
        assert (Q' : In q (p :: c')).
        { destruct Q as (x & y & Ex & Ny). eapply last_of_filter; eauto. cbn. rewrite En, C. cbn. now apply has_in, F. }
        assert (q = p) as ->.
        { destruct Q' as [->|Q']; auto. exfalso. apply N. rewrite map_map. apply in_map_iff. exists q. auto. }
        exists p. split; auto. split; auto. split; auto. split; auto. intros [J1 J2].
        apply negb_true_iff, andb_false_iff in C as [C|C].
        -- apply contains_key_spec in J1. congruence.
        -- apply negb_false_iff, contains_key_spec in C. apply J2. apply in_map_iff in C as ((j & r) & <- & C).
           now exists r.
      * intros (p & (b & c & E & N) & <- & <- & D & C). rewrite E, filter_app. cbn [filter].
        assert (T : negb (contains_key (name p) reqs && negb (contains_key (name p) (manifest_requirements m))) && has (name p) f = true).
        { apply andb_true_iff. split; [|now apply has_in, F]. apply negb_true_iff, andb_false_iff.
          destruct (contains_key (name p) reqs) eqn:C1; auto. right. apply negb_false_iff.
          destruct (contains_key (name p) (manifest_requirements m)) eqn:C2; auto. exfalso. apply C.
          split; [now apply contains_key_spec|]. intros [r J].
          assert (contains_key (name p) (manifest_requirements m) = true); [|congruence].
          apply contains_key_spec, in_map_iff. exists (name p, r). auto. }
        rewrite T, map_app. cbn [map]. eexists _, _. split; [reflexivity|].
        rewrite map_map. intros I. apply in_map_iff in I as (q & En & I). apply filter_In in I as [I _]. now apply (N q I).
    + intros (n & N & Lo). apply needed_reach in N as (k & (r & r' & I & G & S) & P).
      apply K in G. pose proof (B _ _ _ I G S) as Fi. destruct (fits_reach _ _ _ P _ Fi) as (s & Fs).
      apply requires_plus in Lo. now rewrite (fits_no_loop _ _ Lo) in Fs.
  - intros Lt. destruct R as (n & r & r' & I & G & S & F).
    destruct (loops_if_deep (tree m) stack n) as (x & P & Lo); auto; [pose proof (tree_length m); lia|].
    exists x. split; [|now apply requires_plus]. apply needed_reach. exists n. split; auto.
    exists r, r'. rewrite <- K. auto.
Qed.
