From Coq Require Import NArith Arith Bool List Permutation Sorted Lia String.
From Verif Require Import Text TextProofs DepTree DepTreeSpec DepTreeProofs VersionSpec VersionProofs Packages PackagesSpec.
Import ListNotations.
Local Open Scope nat_scope.
Local Open Scope list_scope.

Notation pname := Packages.name.

Lemma found_in n l : existsb (text_eqb n) l = true <-> In n l.
Proof.
  rewrite existsb_exists. split.
  - intros (x & I & E). apply text_eqb_eq in E as ->. exact I.
  - intros I. exists n. split; auto. apply text_eqb_refl.
Qed.
Lemma not_found n l : existsb (text_eqb n) l = false <-> ~ In n l.
Proof. rewrite <- found_in. destruct existsb; split; congruence. Qed.

(** ** The map of packages *)
Lemma new_snoc ps p : new (ps ++ [p]) = insert (new ps) p.
Proof. unfold new. now rewrite fold_left_app. Qed.
Lemma listed_snoc ps q p : listed (ps ++ [q]) p <-> p = q \/ (listed ps p /\ pname p <> pname q).
Proof.
  split.
  - intros (b & a & E & H). destruct a as [|x a'] using rev_ind.
    + apply app_inj_tail in E as [-> ->]. now left.
    + clear IHa'. replace (b ++ p :: a' ++ [x]) with ((b ++ p :: a') ++ [x]) in E by now rewrite <- app_assoc.
      apply app_inj_tail in E as [-> ->]. right. split.
      * exists b, a'. split; auto. intros r R. apply H, in_app_iff. now left.
      * intros E. apply (H x); [apply in_app_iff; right; now left|congruence].
  - intros [->|[(b & a & -> & H) N]].
    + exists ps, []. split; auto.
    + exists b, (a ++ [q]). split; [now rewrite <- app_assoc|].
      intros r R. apply in_app_iff in R as [R|[<-|[]]]; auto.
Qed.
Lemma new_spec ps : NoDup (map pname (new ps)) /\ forall p, In p (new ps) <-> listed ps p.
Proof.
  induction ps as [|q ps [ND IH]] using rev_ind.
  - split; [constructor|]. intros p. split; [intros []|].
    intros (b & a & E & _). now destruct b.
  - rewrite new_snoc. unfold insert. split.
    + cbn [map]. constructor.
      * intros I. apply in_map_iff in I as (x & E & I). apply filter_In in I as [_ I].
        rewrite E, text_eqb_refl in I. discriminate.
      * clear IH. induction (new ps) as [|x l IHl]; cbn; [constructor|].
        inversion ND as [|? ? N ND']; subst. destruct (text_eqb (pname x) (pname q)); cbn; auto.
        constructor; auto. intros I. apply N. apply in_map_iff in I as (y & E & I).
        apply filter_In in I as [I _]. rewrite <- E. now apply in_map.
    + intros p. rewrite listed_snoc. cbn [In]. rewrite filter_In, IH, negb_true_iff, text_eqb_neq.
      intuition congruence.
Qed.
Lemma get_some ps n p : NoDup (map pname ps) -> (get n ps = Some p <-> In p ps /\ pname p = n).
Proof.
  induction ps as [|q ps IH]; cbn; intros ND; [split; [discriminate|intros [[] _]]|].
  inversion ND as [|? ? N ND']; subst. destruct (text_eqb (pname q) n) eqn:E.
  - apply text_eqb_eq in E. split.
    + intros [= <-]. auto.
    + intros [[->|I] En]; auto. exfalso. apply N. rewrite E, <- En. now apply in_map.
  - apply text_eqb_neq in E. rewrite IH by auto. intuition congruence.
Qed.
Lemma get_none ps n : get n ps = None <-> ~ In n (map pname ps).
Proof.
  induction ps as [|q ps IH]; cbn; [tauto|]. destruct (text_eqb (pname q) n) eqn:E.
  - apply text_eqb_eq in E. split; [discriminate|tauto].
  - apply text_eqb_neq in E. rewrite IH. tauto.
Qed.

(** ** Production packages *)
Inductive need (deps : list text) (ps : list package) : text -> Prop :=
  | need_root n : In n deps -> need deps ps n
  | need_more p n : need deps ps (pname p) -> In p ps -> In n (requirements p) -> need deps ps n.

Section Production.
Context (ps : list package) (deps : list text).
Hypothesis ND : NoDup (map pname ps).

Definition unmet (found : list text) (qs : list package) : nat :=
  list_sum (map (fun p => if existsb (text_eqb (pname p)) found then 0 else List.length (requirements p)) qs).

Lemma unmet_cons found q qs : unmet found (q :: qs) =
  (if existsb (text_eqb (pname q)) found then 0 else List.length (requirements q)) + unmet found qs.
Proof. reflexivity. Qed.
Lemma unmet_more n found qs : unmet (n :: found) qs <= unmet found qs.
Proof.
  induction qs as [|q qs IH]; [cbn; lia|]. rewrite !unmet_cons. cbn [existsb].
  destruct (text_eqb (pname q) n); cbn [orb]; [|lia]. destruct existsb; lia.
Qed.
Lemma unmet_found p n found qs : In p qs -> pname p = n -> ~ In n found ->
  unmet (n :: found) qs + List.length (requirements p) <= unmet found qs.
Proof.
  intros I E N. induction qs as [|q qs IH]; [destruct I|]. rewrite !unmet_cons. cbn [existsb].
  destruct I as [->|I].
  - pose proof (unmet_more n found qs). rewrite E, text_eqb_refl. cbn [orb].
    apply not_found in N. rewrite N. lia.
  - specialize (IH I). destruct (text_eqb (pname q) n) eqn:Q; cbn [orb]; [|lia].
    destruct existsb; lia.
Qed.

Definition ok (found queue : list text) : Prop :=
  (forall n, In n found \/ In n queue -> need deps ps n)
  /\ (forall n, In n deps -> In n found \/ In n queue)
  /\ (forall p n, In p ps -> In (pname p) found -> In n (requirements p) -> In n found \/ In n queue).

Lemma production_spec fuel : forall found queue, ok found queue ->
  List.length queue + unmet found ps < fuel ->
  exists all, production fuel ps found queue = Some all /\ forall n, In n all <-> need deps ps n.
Proof.
  induction fuel as [|fuel IH]; intros found queue (O1 & O2 & O3) F; [lia|].
  destruct queue as [|n queue]; cbn [production].
  - exists found. split; auto. intros n. split; [auto|].
    induction 1 as [n I|p n H IHn I R].
    + now destruct (O2 n I).
    + now destruct (O3 p n I IHn R).
  - destruct (existsb (text_eqb n) found) eqn:E.
    + apply found_in in E. apply IH; [|cbn in F; lia]. repeat split.
      * intros m [I|I]; apply O1; cbn; auto.
      * intros m I. destruct (O2 m I) as [|[<-|]]; auto.
      * intros p m Ip If R. destruct (O3 p m Ip If R) as [|[<-|]]; auto.
    + apply not_found in E.
      destruct (get n ps) as [p|] eqn:G.
      * apply get_some in G as [Ip En]; [|exact ND]. apply IH.
        -- repeat split.
           ++ intros m [[<-|I]|I]; [apply O1; cbn; auto|apply O1; cbn; auto|].
              apply in_app_iff in I as [I|I]; [|apply O1; cbn; auto].
              apply in_rev in I. apply need_more with p; auto. rewrite En. apply O1; cbn; auto.
           ++ intros m I. destruct (O2 m I) as [|[<-|]]; cbn; auto. right. apply in_app_iff. auto.
           ++ intros q m Iq If R. destruct If as [If|If].
              ** assert (q = p) as ->.
                 { assert (A : get n ps = Some q) by now apply get_some.
                   assert (B : get n ps = Some p) by now apply get_some. congruence. }
                 right. apply in_app_iff. left. now apply in_rev in R.
              ** destruct (O3 q m Iq If R) as [|[<-|]]; cbn; auto. right. apply in_app_iff. auto.
        -- pose proof (unmet_found p n found ps Ip En E). cbn in F. rewrite app_length, rev_length. lia.
      * apply IH.
        -- repeat split.
           ++ intros m [[<-|I]|I]; apply O1; cbn; auto.
           ++ intros m I. destruct (O2 m I) as [|[<-|]]; cbn; auto.
           ++ intros q m Iq [If|If] R.
              ** exfalso. apply get_none in G. apply G. rewrite If. now apply in_map.
              ** destruct (O3 q m Iq If R) as [|[<-|]]; cbn; auto.
        -- pose proof (unmet_more n found ps). cbn in F. lia.
Qed.
Lemma retain_spec : exists kept, retain_only_production_packages deps ps = Some kept
  /\ exists keep, kept = filter keep ps /\ forall p, keep p = true <-> need deps ps (pname p).
Proof.
  unfold retain_only_production_packages.
  destruct (production_spec (production_fuel ps deps) [] (rev deps)) as (all & -> & A).
  - repeat split.
    + intros n [[]|I]. apply in_rev in I. now constructor.
    + intros n I. right. now apply in_rev in I.
    + intros p n _ [].
  - unfold production_fuel, unmet. rewrite rev_length. cbn. lia.
  - eexists. split; [reflexivity|]. eexists. split; [reflexivity|]. intros p. now rewrite found_in, A.
Qed.
End Production.

(** ** Order *)
Lemma insert_sorted_perm p l : Permutation (insert_sorted p l) (p :: l).
Proof.
  induction l as [|q l IH]; cbn; auto. destruct text_cmp; auto.
  transitivity (q :: p :: l); [now constructor|constructor].
Qed.
Lemma sorted_perm l : Permutation (sorted_by_name l) l.
Proof. induction l as [|p l IH]; cbn; auto. rewrite insert_sorted_perm. now constructor. Qed.

Definition name_lt (p q : package) : Prop := text_cmp (pname p) (pname q) = Lt.
Lemma text_cmp_lt a b : text_cmp a b = Lt <-> dictionary N.lt a b.
Proof. rewrite text_cmp_is. apply list_cmp_lt; [apply N.compare_eq_iff|apply N.compare_lt_iff]. Qed.
Lemma text_cmp_eq a b : text_cmp a b = Eq <-> a = b.
Proof. rewrite text_cmp_is. apply list_cmp_eq. apply N.compare_eq_iff. Qed.
Lemma text_cmp_flip a b : text_cmp b a = CompOpp (text_cmp a b).
Proof. rewrite !text_cmp_is. apply list_cmp_opp. intros; apply N.compare_antisym. Qed.
Lemma name_lt_trans p q r : name_lt p q -> name_lt q r -> name_lt p r.
Proof.
  unfold name_lt. rewrite !text_cmp_lt. intros A B.
  apply dictionary_trans with (R := N.lt) (b := pname q); auto. intros x y z. apply N.lt_trans.
Qed.
Lemma insert_sorted_sorted p l : ~ In (pname p) (map pname l) ->
  StronglySorted name_lt l -> StronglySorted name_lt (insert_sorted p l).
Proof.
  intros N S. induction S as [|q l S IH F]; cbn; [repeat constructor|].
  cbn in N. destruct (text_cmp (pname p) (pname q)) eqn:E.
  - apply text_cmp_eq in E. exfalso. apply N. auto.
  - constructor; [now constructor|]. constructor; auto.
    eapply Forall_impl; [|exact F]. intros r R. now apply name_lt_trans with q.
  - constructor; [apply IH; tauto|].
    assert (Permutation (insert_sorted p l) (p :: l)) as P by apply insert_sorted_perm.
    apply Permutation_Forall with (1 := Permutation_sym P). constructor; auto.
    unfold name_lt. rewrite text_cmp_flip, E. reflexivity.
Qed.
Lemma sorted_sorted l : NoDup (map pname l) -> StronglySorted name_lt (sorted_by_name l).
Proof.
  induction l as [|p l IH]; cbn; intros ND; [constructor|]. inversion ND; subst.
  apply insert_sorted_sorted; auto. intros I. apply H1.
  eapply Permutation_in; [|exact I]. apply Permutation_map, sorted_perm.
Qed.
Lemma sorted_unique a b : StronglySorted name_lt a -> StronglySorted name_lt b -> Permutation a b -> a = b.
Proof.
  intros S. revert b. induction S as [|p a S IH F]; intros b Sb P.
  - apply Permutation_nil in P. now subst.
  - destruct Sb as [|q b Sb Fb].
    { apply Permutation_sym, Permutation_nil in P. discriminate. }
    assert (p = q) as ->.
    { assert (Ip : In p (q :: b)) by (eapply Permutation_in; [exact P|now left]).
      assert (Iq : In q (p :: a)) by (eapply Permutation_in; [apply Permutation_sym, P|now left]).
      destruct Ip as [|Ip]; auto. destruct Iq as [|Iq]; auto. exfalso.
      rewrite Forall_forall in F, Fb. pose proof (F q Iq) as A. pose proof (Fb p Ip) as B.
      pose proof (name_lt_trans _ _ _ A B) as C. unfold name_lt in C.
      assert (text_cmp (pname p) (pname p) = Eq) by now apply text_cmp_eq. congruence. }
    f_equal. apply IH; auto. now apply Permutation_cons_inv in P.
Qed.
Lemma order_same a b : NoDup (map pname a) -> Permutation a b -> order_packages a = order_packages b.
Proof.
  intros ND P. unfold order_packages. do 2 f_equal.
  assert (NoDup (map pname b)) by (eapply Permutation_NoDup; [apply Permutation_map, P|exact ND]).
  apply sorted_unique; [now apply sorted_sorted|now apply sorted_sorted|].
  rewrite !sorted_perm. exact P.
Qed.

(** ** Tools *)
Lemma usable_spec l : forall r m, usable r m l =
  if existsb (text_eqb (str "gleam")) l then Some [Gleam]
  else match (if m || existsb (text_eqb (str "mix")) l then [Mix] else [])
             ++ (if r || existsb (text_eqb (str "rebar")) l || existsb (text_eqb (str "rebar3")) l then [Rebar3] else []) with
       | [] => None
       | ts => Some ts
       end.
Proof.
  induction l as [|t l IH]; intros r m.
  - cbn. rewrite !orb_false_r. now destruct r, m.
  - cbn [usable existsb].
    assert (X : forall s, text_eqb s t = text_eqb t s).
    { intros s. destruct (text_eqb t s) eqn:E; [apply text_eqb_eq in E as ->; apply text_eqb_refl|].
      apply text_eqb_neq in E. apply text_eqb_neq. congruence. }
    rewrite !X. destruct (text_eqb t (str "gleam")); [reflexivity|].
    destruct (text_eqb t (str "rebar")) eqn:A.
    { apply text_eqb_eq in A as ->. rewrite IH. cbn -[existsb]. now rewrite !orb_true_r. }
    destruct (text_eqb t (str "rebar3")) eqn:B.
    { apply text_eqb_eq in B as ->. rewrite IH. cbn -[existsb]. now rewrite !orb_true_r. }
    destruct (text_eqb t (str "mix")) eqn:C; rewrite IH; cbn -[existsb]; now rewrite ?orb_true_r.
Qed.
Lemma usable_tools p : usable_build_tools p = match tools p with [] => None | ts => Some ts end.
Proof.
  unfold usable_build_tools, tools. rewrite usable_spec. cbn [orb].
  destruct (existsb (text_eqb (str "gleam")) _); [reflexivity|].
  destruct (existsb (text_eqb (str "mix")) _), (existsb (text_eqb (str "rebar")) _), (existsb (text_eqb (str "rebar3")) _); reflexivity.
Qed.
Lemma tools_cases p : tools p = [] \/ tools p = [Gleam] \/ tools p = [Mix] \/ tools p = [Rebar3] \/ tools p = [Mix; Rebar3].
Proof.
  unfold tools. destruct (existsb (text_eqb (str "gleam")) _); auto.
  destruct (existsb (text_eqb (str "mix")) _), (existsb (text_eqb (str "rebar")) _ || existsb (text_eqb (str "rebar3")) _); cbn; auto.
Qed.

Lemma load_spec builds ps n p : get n ps = Some p -> pname p = n ->
  exists tr r, load_cache_or_compile_package builds ps n = (tr, r)
  /\ ((r = None /\ tried builds n (tools p) tr true)
      \/ (tools p = [] /\ tr = [] /\ r = Some (UnsupportedBuildTool n))
      \/ (tools p <> [] /\ tried builds n (tools p) tr false /\ r = Some (Failed n))).
Proof.
  intros G N. unfold load_cache_or_compile_package. rewrite G, usable_tools.
  destruct (tools_cases p) as [E|[E|[E|[E|E]]]]; rewrite E.
  - do 2 eexists. split; [reflexivity|]. auto.
  - destruct (builds n Gleam) eqn:B; do 2 eexists; (split; [reflexivity|]).
    + left. split; auto. now constructor.
    + right. right. repeat split; [congruence|]. now repeat constructor.
  - destruct (builds n Mix) eqn:B; do 2 eexists; (split; [reflexivity|]).
    + left. split; auto. now constructor.
    + right. right. repeat split; [congruence|]. now repeat constructor.
  - destruct (builds n Rebar3) eqn:B; do 2 eexists; (split; [reflexivity|]).
    + left. split; auto. now constructor.
    + right. right. repeat split; [congruence|]. now repeat constructor.
  - destruct (builds n Mix) eqn:B; [|destruct (builds n Rebar3) eqn:B']; do 2 eexists; (split; [reflexivity|]).
    + left. split; auto. now constructor.
    + left. split; auto. constructor; auto. now constructor.
    + right. right. repeat split; [congruence|]. now repeat constructor.
Qed.

Lemma sequence_spec builds ps : NoDup (map pname ps) -> forall order, incl order ps ->
  exists tr r, compile_sequence builds ps (map pname order) = (tr, r) /\ built builds order tr r.
Proof.
  intros ND. induction order as [|p order IH]; intros I.
  - do 2 eexists. split; [reflexivity|constructor].
  - cbn [map compile_sequence].
    destruct (load_spec builds ps (pname p) p) as (tr & r & -> & H); [| reflexivity |].
    { apply get_some; auto. split; auto. apply I. now left. }
    destruct IH as (tr' & r' & -> & B); [intros x X; apply I; now right|].
    destruct H as [[-> T]|[(T & -> & ->)|(T & T' & ->)]].
    + do 2 eexists. split; [reflexivity|]. now constructor.
    + do 2 eexists. split; [reflexivity|]. now constructor.
    + do 2 eexists. split; [reflexivity|]. now constructor.
Qed.

Lemma names_of (ps : list package) (l : list text) : Permutation l (map pname ps) ->
  exists order, l = map pname order /\ Permutation order ps.
Proof.
  intros P. apply Permutation_map_inv in P as (o & -> & P). exists o. split; auto.
  now apply Permutation_sym.
Qed.

Definition entry_of (p : package) := (pname p, requirements p).
Lemma fst_entries l : map fst (map entry_of l) = map pname l.
Proof. rewrite map_map. reflexivity. Qed.
Lemma imports_requires ps p q : In p ps -> In q ps -> requires p q ->
  imports (map entry_of (sorted_by_name ps)) (pname p) (pname q).
Proof.
  intros Ip Iq R. exists (requirements p). split.
  { apply in_map_iff. exists p. split; auto.
    eapply Permutation_in; [apply Permutation_sym, sorted_perm|exact Ip]. }
  split; [exact R|]. rewrite fst_entries. apply in_map.
  eapply Permutation_in; [apply Permutation_sym, sorted_perm|exact Iq].
Qed.
Lemma requires_imports ps p q : NoDup (map pname ps) -> In p ps -> In q ps ->
  imports (map entry_of (sorted_by_name ps)) (pname p) (pname q) -> requires p q.
Proof.
  intros ND Ip Iq (d & I & R & _). apply in_map_iff in I as (x & [= E <-] & Ix).
  apply (Permutation_in x (sorted_perm ps)) in Ix.
  assert (x = p) as ->; [|exact R].
  assert (get (pname p) ps = Some x) by now apply get_some.
  assert (get (pname p) ps = Some p) by now apply get_some. congruence.
Qed.

Lemma comes_before_names (order : list package) p q : NoDup (map pname order) -> In p order -> In q order ->
  comes_before (pname q) (pname p) (map pname order) -> comes_before q p order.
Proof.
  intros ND Ip Iq (a & b & c & E).
  apply map_eq_app in E as (la & l1 & -> & <- & E).
  destruct l1 as [|q' l1]; [discriminate|]. cbn in E. injection E as Eq E.
  apply map_eq_app in E as (lb & l2 & -> & <- & E).
  destruct l2 as [|p' l2]; [discriminate|]. cbn in E. injection E as Ep <-.
  assert (U : forall x y, In x (la ++ q' :: lb ++ p' :: l2) -> In y (la ++ q' :: lb ++ p' :: l2) -> pname x = pname y -> x = y).
  { intros x y X Y Exy.
    assert (get (pname y) (la ++ q' :: lb ++ p' :: l2) = Some x) by now apply get_some.
    assert (get (pname y) (la ++ q' :: lb ++ p' :: l2) = Some y) by now apply get_some. congruence. }
  assert (q' = q) as ->.
  { apply U; auto. apply in_app_iff. right. now left. }
  assert (p' = p) as ->.
  { apply U; auto. apply in_app_iff. right. right. apply in_app_iff. right. now left. }
  now exists la, lb, l2.
Qed.

(** A loop of names as a loop of packages. *)
Lemma next_pairs R (first : text) l : imported_by_next R first l <->
  forall a x y b, l ++ [first] = a ++ x :: y :: b -> R y x.
Proof.
  induction l as [|x l IH]; [split; [|intros _; exact I]|].
  - intros _ a x y b E. destruct a as [|? a]; [discriminate|]. injection E as _ E. now destruct a.
  - destruct l as [|y l].
    + cbn. split.
      * intros H a u v b E. destruct a as [|? [|? a]]; [|discriminate|].
        -- now injection E as <- <- _.
        -- exfalso. apply (f_equal (@List.length _)) in E. cbn in E. rewrite app_length in E. cbn in E. lia.
      * intros H. now apply (H [] x first []).
    + change (imported_by_next R first (x :: y :: l)) with (R y x /\ imported_by_next R first (y :: l)).
      rewrite IH. split.
      * intros [A B] a u v b E. destruct a as [|w a].
        -- now injection E as <- <- _.
        -- injection E as _ E. now apply (B a u v b).
      * intros H. split; [now apply (H [] x y (l ++ [first]))|].
        intros a u v b E. apply (H (x :: a) u v b). cbn [app] in *. now rewrite <- E.
Qed.
Lemma loop_spec ps l : NoDup (map pname ps) ->
  (import_loop (map entry_of (sorted_by_name ps)) l <-> requirement_loop (fun p => In p ps) l).
Proof.
  intros ND. set (R := imports (map entry_of (sorted_by_name ps))).
  assert (K : forall m d, R m d -> exists q, In q ps /\ pname q = d).
  { intros m d (ds & _ & _ & I). rewrite fst_entries in I. apply in_map_iff in I as (q & E & I).
    exists q. split; auto. eapply Permutation_in; [apply sorted_perm|exact I]. }
  split.
  - destruct l as [|first l]; [intros []|]. intros [N L]. fold R in L.
    assert (A : forall x, In x (first :: l) -> exists q, In q ps /\ pname q = x).
    { intros x I. rewrite next_pairs in L. apply in_split in I as (a & b & E). rewrite E in L.
      destruct (b ++ [first]) as [|y b'] eqn:B; [now destruct b|].
      apply (K y). apply (L a x y b'). rewrite <- app_assoc. cbn. now rewrite B. }
    assert (B : exists qs, first :: l = map pname qs /\ forall q, In q qs -> In q ps).
    { clear L N. induction (first :: l) as [|x m IH]; [exists []; split; auto; intros ? []|].
      destruct (A x) as (q & Iq & E); [now left|]. destruct IH as (qs & -> & H); [intros; apply A; now right|].
      exists (q :: qs). split; [cbn; congruence|]. intros r [<-|]; auto. }
    destruct B as (qs & E & H). destruct qs as [|p qs]; [discriminate|].
    exists p, qs. repeat split; auto. intros a x y b Eq.
    assert (I : In x ps /\ In y ps).
    { assert (forall z, In z ((p :: qs) ++ [p]) -> In z ps).
      { intros z Z. apply in_app_iff in Z as [Z|[<-|[]]]; [now apply H|apply H; now left]. }
      split; apply H0; rewrite Eq; apply in_app_iff; right; cbn; auto. }
    apply (requires_imports ps); try tauto. fold R. rewrite next_pairs in L.
    apply (L (map pname a) (pname x) (pname y) (map pname b)).
    injection E as -> El. change (pname p :: l) with ([pname p] ++ l). rewrite El.
    change ([pname p] ++ map pname qs) with (map pname (p :: qs)). change [pname p] with (map pname [p]).
    rewrite <- map_app, Eq, map_app. reflexivity.
  - intros (first & rest & -> & N & W & P). cbn [map import_loop]. split; [exact N|].
    apply next_pairs. intros a x y b E.
    change ((pname first :: map pname rest) ++ [pname first]) with (map pname (first :: rest) ++ map pname [first]) in E.
    rewrite <- map_app in E. apply map_eq_app in E as (la & l1 & E1 & <- & E).
    destruct l1 as [|p l1]; [discriminate|]. cbn in E. injection E as Ep E.
    destruct l1 as [|q l1]; [discriminate|]. cbn in E. injection E as Eq <-. subst x y.
    assert (I : forall z, In z ((first :: rest) ++ [first]) -> In z ps).
    { intros z Z. apply in_app_iff in Z as [Z|[<-|[]]]; [now apply W|apply W; now left]. }
    apply imports_requires.
    + apply I. rewrite E1. apply in_app_iff. right. right. now left.
    + apply I. rewrite E1. apply in_app_iff. right. now left.
    + now apply (P la p q l1).
Qed.

Definition outcome_of (builds : text -> tool -> bool) (ps : package -> Prop) tr r : Prop :=
  (exists order, (forall p, In p order <-> ps p) /\ NoDup (map pname order)
     /\ (forall p q, ps p -> ps q -> requires p q -> comes_before q p order)
     /\ built builds order tr r)
  \/ (exists l, requirement_loop ps l /\ tr = [] /\ r = Some (PackageCycle l)).

Lemma dependencies_spec builds ps : NoDup (map pname ps) ->
  exists tr r, compile_dependencies builds ps = (tr, r) /\ outcome_of builds (fun p => In p ps) tr r.
Proof.
  intros ND. unfold compile_dependencies, order_packages.
  change (fun p => (pname p, requirements p)) with entry_of.
  assert (ND' : NoDup (map fst (map entry_of (sorted_by_name ps)))).
  { rewrite fst_entries. eapply Permutation_NoDup; [|exact ND]. apply Permutation_map, Permutation_sym, sorted_perm. }
  pose proof (toposort_deps_spec _ ND') as T.
  destruct (toposort_deps _) as [order|[l|]] eqn:E; [| |contradiction].
  - destruct T as [P B]. rewrite fst_entries in P. apply names_of in P as (o & -> & P).
    rewrite sorted_perm in P.
    assert (NDo : NoDup (map pname o)).
    { eapply Permutation_NoDup; [|exact ND]. now apply Permutation_map, Permutation_sym. }
    destruct (sequence_spec builds ps ND o) as (tr & r & -> & H).
    { intros x X. now apply (Permutation_in x P). }
    exists tr, r. split; auto. left. exists o. repeat split; auto.
    + intros X. now apply (Permutation_in p P).
    + intros X. now apply (Permutation_in p (Permutation_sym P)).
    + intros p q Ip Iq R. apply comes_before_names; auto.
      * now apply (Permutation_in p (Permutation_sym P)).
      * now apply (Permutation_in q (Permutation_sym P)).
      * apply B. now apply imports_requires.
  - do 2 eexists. split; [reflexivity|]. right. exists l. split; auto. now apply loop_spec.
Qed.

Lemma need_needed deps manifest n : need deps (new manifest) n <-> needed deps manifest n.
Proof.
  split; induction 1 as [n I|p n _ IH I R]; try (now constructor).
  - apply needed_requirement with p; auto. now apply new_spec.
  - apply need_more with p; auto. now apply new_spec.
Qed.
Lemma filter_names keep (ps : list package) : NoDup (map pname ps) -> NoDup (map pname (filter keep ps)).
Proof.
  induction ps as [|p ps IH]; cbn; intros ND; [constructor|]. inversion ND; subst.
  destruct (keep p); auto. cbn. constructor; auto. intros I. apply H1.
  apply in_map_iff in I as (x & <- & I). apply filter_In in I as [I _]. now apply in_map.
Qed.
Lemma outcome_ext builds P Q tr r : (forall p, P p <-> Q p) -> outcome_of builds P tr r -> outcome_of builds Q tr r.
Proof.
  intros E [(o & A & N & B & H)|(l & (f & rest & L1 & L2 & L3 & L4) & T)].
  - left. exists o. repeat split; auto.
    + intros X. now apply E, A.
    + intros X. now apply A, E.
    + intros p q X Y. apply B; now apply E.
  - right. exists l. split; auto. exists f, rest. repeat split; auto. intros p X. now apply E, L3.
Qed.
Lemma compile_spec builds m deps manifest : exists tr r,
  compile builds m deps manifest = (tr, r) /\ outcome_of builds (wanted m deps manifest) tr r.
Proof.
  destruct (new_spec manifest) as [ND I]. unfold compile.
  assert (G : m <> Prod -> exists tr r, compile_dependencies builds (new manifest) = (tr, r)
    /\ outcome_of builds (wanted m deps manifest) tr r).
  { intros M. destruct (dependencies_spec builds _ ND) as (tr & r & -> & H). exists tr, r. split; auto.
    revert H. apply outcome_ext. intros p. unfold wanted. rewrite I. intuition congruence. }
  destruct m; try (apply G; discriminate). clear G.
  destruct (retain_spec (new manifest) deps ND) as (kept & -> & keep & -> & K).
  destruct (dependencies_spec builds _ (filter_names keep _ ND)) as (tr & r & -> & H).
  exists tr, r. split; auto. revert H. apply outcome_ext.
  intros p. unfold wanted. rewrite filter_In, I, K, need_needed. tauto.
Qed.

(** ** The order of the manifest *)
Lemma get_new_same builds a b : NoDup (map pname a) -> Permutation a b ->
  compile_dependencies builds a = compile_dependencies builds b.
Proof.
  intros ND P. unfold compile_dependencies. rewrite (order_same a b ND P).
  destruct (order_packages b) as [s|e]; auto.
  assert (NDb : NoDup (map pname b)) by (eapply Permutation_NoDup; [apply Permutation_map, P|exact ND]).
  assert (G : forall n, get n a = get n b).
  { intros n. destruct (get n a) as [p|] eqn:E.
    - apply get_some in E as [I N]; auto. symmetry. apply get_some; auto. split; auto.
      now apply (Permutation_in p P).
    - symmetry. apply get_none. apply get_none in E. intros I. apply E.
      eapply Permutation_in; [|exact I]. now apply Permutation_map, Permutation_sym. }
  induction s as [|n s IH]; cbn; auto. unfold load_cache_or_compile_package. rewrite (G n).
  destruct (get n b); auto. rewrite IH. reflexivity.
Qed.
Lemma compile_same builds m deps deps' manifest manifest' :
  (forall n, In n deps <-> In n deps') -> (forall p, listed manifest p <-> listed manifest' p) ->
  compile builds m deps manifest = compile builds m deps' manifest'.
Proof.
  intros D L. destruct (new_spec manifest) as [ND I]. destruct (new_spec manifest') as [ND' I'].
  assert (P : Permutation (new manifest) (new manifest')).
  { apply NoDup_Permutation; try (eapply NoDup_map_inv; eassumption).
    intros p. now rewrite I, I', L. }
  assert (N : forall n, need deps (new manifest) n <-> need deps' (new manifest') n).
  { intros n. rewrite !need_needed. split; induction 1 as [n X|p n _ IH X R].
    - constructor. now apply D.
    - apply needed_requirement with p; auto. now apply L.
    - constructor. now apply D.
    - apply needed_requirement with p; auto. now apply L. }
  unfold compile. destruct m; try (now apply get_new_same).
  destruct (retain_spec (new manifest) deps ND) as (kept & -> & keep & -> & K).
  destruct (retain_spec (new manifest') deps' ND') as (kept' & -> & keep' & -> & K').
  apply get_new_same; [now apply filter_names|].
  apply NoDup_Permutation; try (apply NoDup_filter; eapply NoDup_map_inv; eassumption).
  intros p. rewrite !filter_In, I, I', L, K, K', N. tauto.
Qed.
