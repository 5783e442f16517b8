(** Proofs about resolving versions. *)
From Coq Require Import ZArith NArith Arith Bool String List Permutation Lia ZifyBool ZifyNat ZifyN Sorted.
From Verif Require Import Text TextProofs Version VersionSpec VersionProofs Resolve ResolveSpec.
Import ListNotations.
Local Open Scope nat_scope.
Local Open Scope list_scope.

(** ** Maps *)
Section Maps.
Context {A : Type}.
Implicit Types (m : list (text * A)) (k : text) (a : A).

Lemma get_in k m a : get k m = Some a -> In (k, a) m.
Proof.
  induction m as [|[k' b] m IH]; cbn; [discriminate|].
  destruct (text_eqb k' k) eqn:E.
  - intros [= ->]. apply text_eqb_eq in E. subst. now left.
  - auto.
Qed.

Lemma get_none k m : get k m = None <-> ~ In k (map fst m).
Proof.
  induction m as [|[k' b] m IH]; cbn; [tauto|].
  destruct (text_eqb k' k) eqn:E.
  - apply text_eqb_eq in E. subst. split; [discriminate|tauto].
  - apply text_eqb_neq in E. rewrite IH. tauto.
Qed.

Lemma get_iff k m a : is_map m -> (get k m = Some a <-> In (k, a) m).
Proof.
  unfold is_map. split; [apply get_in|]. revert H.
  induction m as [|[k' b] m IH]; cbn; [tauto|]. intros ND [E|I].
  - injection E as -> ->. now rewrite text_eqb_refl.
  - inversion ND as [|x l N ND' E]; subst. destruct (text_eqb k' k) eqn:E.
    + apply text_eqb_eq in E. subst. destruct N. apply in_map_iff. now exists (k, a).
    + auto.
Qed.

Lemma in_remove k m j a : In (j, a) (remove k m) <-> In (j, a) m /\ j <> k.
Proof.
  unfold remove. rewrite filter_In. cbn. rewrite negb_true_iff, text_eqb_neq. tauto.
Qed.

Lemma in_remove_key k m j : In j (map fst (remove k m)) <-> In j (map fst m) /\ j <> k.
Proof.
  rewrite !in_map_iff. split.
  - intros ((j' & a) & <- & I). apply in_remove in I as [I N]. split; [exists (j', a)|]; auto.
  - intros [((j' & a) & <- & I) N]. exists (j', a). split; auto. now apply in_remove.
Qed.

Lemma remove_map k m : is_map m -> is_map (remove k m).
Proof.
  unfold is_map. induction m as [|[j a] m IH]; cbn; [auto|]. intros ND.
  inversion ND as [|x l N ND' E]; subst.
  change (NoDup (map fst (if negb (text_eqb j k) then (j, a) :: remove k m else remove k m))).
  destruct (negb (text_eqb j k)); cbn; auto. constructor; auto.
  rewrite in_remove_key. tauto.
Qed.

Lemma insert_map k a m : is_map m -> is_map (insert k a m).
Proof.
  intros M. unfold is_map, insert. cbn. constructor; [|now apply remove_map].
  rewrite in_remove_key. tauto.
Qed.

Lemma in_insert k a m j b : In (j, b) (insert k a m) <-> (j = k /\ b = a) \/ (j <> k /\ In (j, b) m).
Proof.
  unfold insert. cbn. rewrite in_remove. split.
  - intros [[= <- <-]|[I N]]; auto.
  - intros [[-> ->]|[N I]]; auto.
Qed.

Lemma get_remove k j m : get j (remove k m) = if text_eqb k j then None else get j m.
Proof.
  unfold remove. induction m as [|[i a] m IH]; cbn; [now destruct (text_eqb k j)|].
  destruct (text_eqb i k) eqn:E; cbn.
  - apply text_eqb_eq in E. subst. rewrite IH. now destruct (text_eqb k j).
  - destruct (text_eqb i j) eqn:F; auto. apply text_eqb_eq in F. subst.
    destruct (text_eqb k j) eqn:G; auto. apply text_eqb_eq in G. subst. now rewrite text_eqb_refl in E.
Qed.

Lemma get_insert k j a m : get j (insert k a m) = if text_eqb k j then Some a else get j m.
Proof.
  unfold insert. cbn. destruct (text_eqb k j) eqn:E; auto. now rewrite get_remove, E.
Qed.
End Maps.

(** ** Equality *)
Lemma identifiers_eqb_eq a : forall b, identifiers_eqb a b = true <-> a = b.
Proof.
  induction a as [|x a IH]; intros [|y b]; cbn; try (split; congruence).
  rewrite andb_true_iff, IH.
  assert (I : identifier_eqb x y = true <-> x = y).
  { destruct x, y; cbn; try (split; congruence).
    - rewrite N.eqb_eq. split; congruence.
    - rewrite text_eqb_eq. split; congruence. }
  rewrite I. split; [intros [-> ->]; auto|intros [= -> ->]; auto].
Qed.

Lemma version_eqb_eq v w : version_eqb v w = true <-> v = w.
Proof.
  unfold version_eqb. rewrite !andb_true_iff, !N.eqb_eq, identifiers_eqb_eq.
  assert (B : forall a b, build_eqb a b = true <-> a = b).
  { intros [a|] [b|]; cbn; try (split; congruence). rewrite text_eqb_eq. split; congruence. }
  rewrite B. destruct v, w; cbn. split.
  - intros ((((-> & ->) & ->) & ->) & ->). reflexivity.
  - intros [= -> -> -> -> ->]. auto.
Qed.

(** ** Texts of exact requirements *)
Definition plain_char (c : N) : Prop := white c = false /\ c <> 61%N.

Lemma plain_alphanumeric c : is_alphanumeric c = true -> plain_char c.
Proof.
  unfold is_alphanumeric, is_digit, is_upper, is_lower, plain_char, white. intros H. split; [|intros ->; discriminate].
  assert (48 <= c <= 122)%N by lia. lia.
Qed.

Lemma trim_start_plain s : Forall plain_char s -> trim_start s = s.
Proof. intros F. destruct F as [|c s [W _] F]; cbn; auto. now rewrite W. Qed.

Lemma trim_plain s : Forall plain_char s -> trim s = s.
Proof.
  intros F. unfold trim. rewrite (trim_start_plain s F). rewrite trim_start_plain; [apply rev_involutive|].
  now apply Forall_rev.
Qed.

Lemma without_plain s : Forall plain_char s -> without_equals s = s.
Proof.
  intros F. induction F as [|c s [_ N] F IH]; auto. cbn. destruct s as [|d s]; auto.
  destruct (N.eqb_spec c 61); [contradiction|]. cbn [andb]. now rewrite IH.
Qed.

Lemma plain_list s : forallb (fun c => negb (white c) && negb (c =? 61)%N) s = true -> Forall plain_char s.
Proof.
  rewrite forallb_forall. intros H. apply Forall_forall. intros c I. apply H in I.
  apply andb_true_iff in I as [I J]. apply negb_true_iff in I, J. apply N.eqb_neq in J. now split.
Qed.

Lemma plain_alphanumerics s : alphanumeric s -> Forall plain_char s.
Proof. apply Forall_impl. exact plain_alphanumeric. Qed.

Lemma plain_decimal n : Forall plain_char (decimal n).
Proof.
  eapply Forall_impl; [|apply decimal_digits]. intros c D. apply plain_alphanumeric.
  unfold is_alphanumeric. now rewrite D.
Qed.

Lemma plain_hyphenated s : hyphenated s -> Forall plain_char s.
Proof.
  induction 1 as [s (_ & A & _)|s r (_ & A & _) H IH].
  - now apply plain_alphanumerics.
  - rewrite !Forall_app. split; [now apply plain_alphanumerics|]. split; auto. now apply plain_list.
Qed.

Lemma plain_dotted_text s : dotted s -> Forall plain_char s.
Proof.
  induction 1 as [s A|s r A _ D IH].
  - now apply plain_alphanumerics.
  - rewrite !Forall_app. split; [now apply plain_alphanumerics|]. split; auto. now apply plain_list.
Qed.

Lemma plain_identifiers l : Forall legal_identifier l -> Forall plain_char (show_dotted l).
Proof.
  assert (I : forall i, legal_identifier i -> Forall plain_char (show_identifier i)).
  { intros [n|s]; cbn; [intros _; apply plain_decimal|intros [H _]; now apply plain_hyphenated]. }
  induction 1 as [|i l L F IH]; [constructor|].
  destruct l as [|j l]; [now apply I|].
  change (Forall plain_char (show_identifier i ++ str "." ++ show_dotted (j :: l))).
  rewrite !Forall_app. split; auto. split; auto. now apply plain_list.
Qed.

Lemma plain_show v : legal_version v -> Forall plain_char (show v).
Proof.
  intros (_ & _ & _ & P & B). unfold show. rewrite !Forall_app.
  do 5 (split; [apply plain_decimal || now apply plain_list|]). split.
  - destruct (is_pre v); [|constructor]. apply Forall_app. split; [now apply plain_list|now apply plain_identifiers].
  - destruct (build v) as [b|]; [|constructor]. apply Forall_app. split; [now apply plain_list|].
    now apply plain_dotted_text.
Qed.

Lemma readable_legal v : readable v -> legal_version v /\ parse (show v) = Ok v.
Proof.
  intros (s & P). apply parse_sound in P as (w1 & w2 & _ & _ & _ & L & _). split; auto.
  rewrite <- (app_nil_l (show v)), <- (app_nil_r (show v)). apply parse_complete; auto; constructor.
Qed.

Lemma show_first v : exists c s, show v = c :: s /\ is_digit c = true.
Proof.
  destruct (decimal_first (major v)) as (c & r & D & _). unfold show. rewrite D. cbn. do 2 eexists.
  split; [reflexivity|]. pose proof (decimal_digits (major v)) as F. rewrite D in F. now inversion F.
Qed.

Lemma exact_show v : readable v -> parse_exact_version (show v) = Some v.
Proof.
  intros R. apply readable_legal in R as [L P]. unfold parse_exact_version.
  rewrite trim_plain by now apply plain_show. rewrite without_plain by now apply plain_show.
  rewrite trim_plain by now apply plain_show. rewrite P.
  destruct (show_first v) as (c & s & -> & ->). now rewrite orb_true_r.
Qed.

(** ** Requirements of the root *)
Definition base_type := list (text * (text * range)).

Lemma last_for_cons {A} k (x : A) j y l : last_for k x ((j, y) :: l) <->
  last_for k x l \/ (j = k /\ y = x /\ ~ In k (map fst l)).
Proof.
  unfold last_for. split.
  - intros ([|e before] & after & E & N); cbn in E.
    + injection E as -> -> ->. auto.
    + injection E as <- ->. left. exists before, after. auto.
  - intros [(before & after & -> & N)|(-> & -> & N)].
    + exists ((j, y) :: before), after. auto.
    + exists [], l. auto.
Qed.

Lemma last_for_exists {A} k (l : list (text * A)) : In k (map fst l) -> exists x, last_for k x l.
Proof.
  induction l as [|[j y] l IH]; cbn; [tauto|]. intros I.
  destruct (in_dec text_eq_dec k (map fst l)) as [J|J].
  - destruct (IH J) as (x & L). exists x. apply last_for_cons. auto.
  - destruct I as [->|I]; [|contradiction]. exists y. apply last_for_cons. auto.
Qed.

Lemma add_requirements_spec locked (base : base_type) : forall m, is_map locked -> is_map m ->
  match add_requirements base locked m with
  | Incompatible name => exists before spec r after v,
      base = before ++ (name, (spec, r)) :: after /\ In (name, v) locked /\ contains r v = false
      /\ forall n s r' v', In (n, (s, r')) before -> In (n, v') locked -> contains r' v' = true
  | Done m' => is_map m'
      /\ (forall n s r v, In (n, (s, r)) base -> In (n, v) locked -> contains r v = true)
      /\ forall n d, In (n, d) m' <->
           (In (n, d) m /\ (In n (map fst locked) \/ ~ In n (map fst base)))
           \/ (~ In n (map fst locked) /\ exists s r, last_for n (s, r) base /\ d = Dependency false s r)
  end.
Proof.
  induction base as [|[n [s r]] base IH]; intros m ML MM; cbn.
  - split; auto. split; [tauto|]. intros n d. split; [tauto|].
    intros [[I _]|(_ & s & r & ([|e b] & a & E & _) & _)]; auto; discriminate.
  - destruct (get n locked) as [v|] eqn:G.
    + apply get_in in G. destruct (contains r v) eqn:C.
      * specialize (IH m ML MM). destruct (add_requirements base locked m) as [m'|name].
        -- destruct IH as (M' & A & B). split; auto. split.
           ++ intros n' s' r' v' [[= <- <- <-]|I] L; [|eauto].
              assert (v' = v); [|now subst].
              apply (get_iff n _ _ ML) in G. apply (get_iff n _ _ ML) in L. congruence.
           ++ intros n' d. rewrite B. assert (K : In n (map fst locked)) by (apply in_map_iff; now exists (n, v)).
              split.
              ** intros [[I [J|J]]|(N & s' & r' & L & ->)].
                 --- left. split; auto.
                 --- destruct (in_dec text_eq_dec n' (map fst locked)); [left; split; auto|].
                     left. split; auto. right. intros [->|I']; tauto.
                 --- right. split; auto. exists s', r'. split; auto. apply last_for_cons. auto.
              ** intros [[I [J|J]]|(N & s' & r' & L & ->)].
                 --- left. split; auto.
                 --- left. split; auto.
                 --- right. split; auto. exists s', r'. split; auto. apply last_for_cons in L as [L|(-> & _)]; auto.
                     contradiction.
        -- destruct IH as (before & s' & r' & after & v' & -> & L & C' & F).
           exists ((n, (s, r)) :: before), s', r', after, v'. repeat split; auto.
           intros n1 s1 r1 v1 [[= <- <- <-]|I] L1; [|eauto].
           assert (v1 = v); [|now subst].
           apply (get_iff n _ _ ML) in G. apply (get_iff n _ _ ML) in L1. congruence.
      * exists [], s, r, base, v. now repeat split.
    + apply get_none in G.
      specialize (IH (insert n (Dependency false s r) m) ML (insert_map _ _ _ MM)).
      destruct (add_requirements base locked (insert n (Dependency false s r) m)) as [m'|name].
      * destruct IH as (M' & A & B). split; auto. split.
        -- intros n' s' r' v' [[= <- <- <-]|I] L; [|eauto]. destruct G. apply in_map_iff. now exists (n, v').
        -- intros n' d. rewrite B, in_insert. split.
           ++ intros [[[[-> ->]|[N I]] [J|J]]|(N & s' & r' & L & ->)].
              ** contradiction.
              ** right. split; auto. exists s, r. split; auto. apply last_for_cons. auto.
              ** left. auto.
              ** left. split; auto. right. intros [->|I']; tauto.
              ** right. split; auto. exists s', r'. split; auto. apply last_for_cons. auto.
           ++ intros [[I [J|J]]|(N & s' & r' & L & ->)].
              ** left. split; auto. right. split; auto. intros ->. contradiction.
              ** left. split; [|tauto]. right. split; auto.
              ** apply last_for_cons in L as [L|(-> & [= -> ->] & NI)].
                 --- right. split; auto. exists s', r'. auto.
                 --- left. split; auto.
      * destruct IH as (before & s' & r' & after & v' & -> & L & C' & F).
        exists ((n, (s, r)) :: before), s', r', after, v'. repeat split; auto.
        intros n1 s1 r1 v1 [[= <- <- <-]|I] L1; [|eauto]. destruct G. apply in_map_iff. now exists (n, v1).
Qed.

Lemma root_dependencies_spec base locked : is_map locked ->
  match root_dependencies base locked with
  | Incompatible name => exists before spec r after v,
      base = before ++ (name, (spec, r)) :: after /\ In (name, v) locked /\ contains r v = false
      /\ forall n s r' v', In (n, (s, r')) before -> In (n, v') locked -> contains r' v' = true
  | Done m => is_map m
      /\ (forall n s r v, In (n, (s, r)) base -> In (n, v) locked -> contains r v = true)
      /\ forall n d, In (n, d) m <->
           (exists v, In (n, v) locked /\ d = Dependency false (show v) (Singleton v))
           \/ (~ In n (map fst locked) /\ exists s r, last_for n (s, r) base /\ d = Dependency false s r)
  end.
Proof.
  intros ML. unfold root_dependencies. set (m := map _ locked).
  assert (K : map fst m = map fst locked).
  { unfold m. rewrite map_map. apply map_ext. now intros [n v]. }
  assert (MM : is_map m) by (unfold is_map; now rewrite K).
  pose proof (add_requirements_spec locked base m ML MM) as H.
  destruct (add_requirements base locked m) as [m'|name]; auto.
  destruct H as (M' & A & B). split; auto. split; auto. intros n d. rewrite B.
  assert (I : In (n, d) m <-> exists v, In (n, v) locked /\ d = exactly v).
  { unfold m. rewrite in_map_iff. split.
    - intros ([n' v] & [= <- <-] & I). eauto.
    - intros (v & I & ->). exists (n, v). auto. }
  rewrite I. split.
  - intros [[E _]|E]; auto.
  - intros [(v & J & ->)|E]; auto. left. split; [eauto|]. left. apply in_map_iff. now exists (n, v).
Qed.

Lemma exact_deps_keys m n : In n (map fst (exact_deps m)) -> In n (map fst m).
Proof.
  induction m as [|[k d] m IH]; cbn; auto.
  destruct (parse_exact_version (spec d)); cbn; tauto.
Qed.

Lemma exact_deps_get n d m : is_map m -> In (n, d) m ->
  get n (exact_deps m) = parse_exact_version (spec d).
Proof.
  unfold is_map. induction m as [|[k e] m IH]; cbn; [tauto|]. intros ND I.
  inversion ND as [|x l N ND' E]; subst. destruct I as [[= -> ->]|I].
  - destruct (parse_exact_version (spec d)) eqn:P; cbn; [now rewrite text_eqb_refl|].
    apply get_none. intros J. now apply exact_deps_keys in J.
  - assert (k <> n) by (intros ->; apply N, in_map_iff; now exists (n, d)).
    destruct (parse_exact_version (spec e)); cbn; auto. destruct (text_eqb k n) eqn:T; auto.
    apply text_eqb_eq in T. contradiction.
Qed.

(** ** Sorting releases *)
Definition not_above (a b : release) : Prop := ~ precedes (of_version b) (of_version a).
Definition not_below (a b : release) : Prop := ~ precedes (of_version a) (of_version b).

Lemma le_false v w : le v w = false <-> precedes w v.
Proof.
  rewrite <- cmp_gt. unfold le. destruct (cmp v w); split; congruence.
Qed.

Lemma le_spec v w : le v w = true <-> ~ precedes w v.
Proof. rewrite <- le_false. destruct (le v w); split; congruence. Qed.

Lemma insert_release_perm r l : Permutation (insert_release r l) (r :: l).
Proof.
  induction l as [|s l IH]; cbn; auto. destruct (le (of_version r) (of_version s)); auto.
  rewrite IH. apply perm_swap.
Qed.

Lemma sort_releases_perm l : Permutation (sort_releases l) l.
Proof. induction l as [|r l IH]; cbn; auto. rewrite insert_release_perm. now constructor. Qed.

Lemma not_precedes_trans u v w : ~ precedes v u -> ~ precedes w v -> ~ precedes w u.
Proof.
  intros A B C. destruct (precedes_total v w) as [P|[S|P]]; auto.
  - apply A. eapply precedes_trans; eauto.
  - apply A. now apply (same_precedence_precedes_l v w u S).
Qed.

Lemma insert_release_sorted r l : StronglySorted not_above l -> StronglySorted not_above (insert_release r l).
Proof.
  induction 1 as [|s l S IH F]; cbn; [repeat constructor|].
  destruct (le (of_version r) (of_version s)) eqn:E.
  - apply le_spec in E. constructor; [now constructor|]. constructor; auto.
    revert F. apply Forall_impl. intros t T. unfold not_above in *. eapply not_precedes_trans; eauto.
  - apply le_false in E. constructor; auto. rewrite Forall_forall in *. intros t I.
    apply (Permutation_in _ (insert_release_perm r l)) in I. destruct I as [<-|I]; auto.
    unfold not_above. intros P. apply (precedes_irrefl (of_version s)). eapply precedes_trans; eauto.
Qed.

Lemma sort_releases_sorted l : StronglySorted not_above (sort_releases l).
Proof. induction l; cbn; [constructor|]. now apply insert_release_sorted. Qed.

Definition same (v : version) (r : release) : bool :=
  match cmp (of_version r) v with Eq => true | _ => false end.
Lemma same_spec v r : same v r = true <-> same_precedence (of_version r) v.
Proof.
  rewrite <- cmp_eq. unfold same. destruct (cmp (of_version r) v); split; congruence.
Qed.

Lemma insert_release_same v r l : filter (same v) (insert_release r l) = filter (same v) (r :: l).
Proof.
  induction l as [|s l IH]; auto. cbn [insert_release]. destruct (le (of_version r) (of_version s)) eqn:E; auto.
  apply le_false in E. cbn [filter] in *. rewrite IH. destruct (same v s) eqn:S; auto.
  destruct (same v r) eqn:R; auto. apply same_spec in S, R.
  apply (same_precedence_precedes_l _ _ _ S) in E. apply (same_precedence_precedes_r _ _ _ R) in E.
  now apply precedes_irrefl in E.
Qed.

Lemma sort_releases_same v l : filter (same v) (sort_releases l) = filter (same v) l.
Proof. induction l as [|r l IH]; auto. cbn [sort_releases]. rewrite insert_release_same. cbn [filter]. now rewrite IH. Qed.

Lemma partition_filters {A} (f : A -> bool) l : partition f l = (filter f l, filter (fun x => negb (f x)) l).
Proof.
  induction l as [|x l IH]; auto. cbn. rewrite IH. now destruct (f x).
Qed.

Lemma sorted_filter {A} (R : A -> A -> Prop) f l : StronglySorted R l -> StronglySorted R (filter f l).
Proof.
  induction 1 as [|x l S IH F]; cbn; [constructor|]. destruct (f x); auto. constructor; auto.
  rewrite Forall_forall in *. intros y I. apply filter_In in I. now apply F.
Qed.

Lemma sorted_snoc {A} (R : A -> A -> Prop) l x : StronglySorted R l -> Forall (fun y => R y x) l ->
  StronglySorted R (l ++ [x]).
Proof.
  induction 1 as [|y l S IH F]; cbn; intros G; [repeat constructor|].
  inversion G as [|y' l' Y G' E]; subst. constructor; auto. apply Forall_app. split; auto.
Qed.

Lemma sorted_rev (l : list release) : StronglySorted not_above l -> StronglySorted not_below (rev l).
Proof.
  induction 1 as [|x l S IH F]; cbn; [constructor|]. apply sorted_snoc; auto. now apply Forall_rev.
Qed.

Lemma filters_perm {A} (f : A -> bool) l : Permutation (filter (fun x => negb (f x)) l ++ filter f l) l.
Proof.
  induction l as [|x l IH]; cbn; auto. destruct (f x); cbn.
  - rewrite <- Permutation_middle. now constructor.
  - now constructor.
Qed.

Lemma filters_same {A} (p f : A -> bool) b l : (forall x, p x = true -> f x = b) ->
  filter p (filter (fun x => negb (f x)) l ++ filter f l) = filter p l.
Proof.
  intros H. rewrite filter_app. destruct b.
  - replace (filter p (filter (fun x => negb (f x)) l)) with (@nil A).
    + cbn. induction l as [|x l IH]; auto. cbn. destruct (f x) eqn:E; cbn; rewrite IH; auto.
      destruct (p x) eqn:P; auto. apply H in P. congruence.
    + induction l as [|x l IH]; auto. cbn. destruct (f x) eqn:E; cbn; auto.
      destruct (p x) eqn:P; auto. apply H in P. congruence.
  - replace (filter p (filter f l)) with (@nil A).
    + rewrite app_nil_r. induction l as [|x l IH]; auto. cbn. destruct (f x) eqn:E; cbn; rewrite IH; auto.
      destruct (p x) eqn:P; auto. apply H in P. congruence.
    + induction l as [|x l IH]; auto. cbn. destruct (f x) eqn:E; cbn; auto.
      destruct (p x) eqn:P; auto. apply H in P. congruence.
Qed.

Lemma filter_rev_ {A} (f : A -> bool) l : filter f (rev l) = rev (filter f l).
Proof.
  induction l as [|x l IH]; auto. cbn. rewrite filter_app, IH. cbn. destruct (f x); cbn; auto.
  apply app_nil_r.
Qed.

Lemma newest_first_perm l : Permutation (newest_first l) l.
Proof.
  unfold newest_first. rewrite partition_filters, filters_perm, <- Permutation_rev. apply sort_releases_perm.
Qed.

Lemma newest_first_spec l :
  (exists stables pres, newest_first l = stables ++ pres
     /\ Forall (fun r => stable (of_version r)) stables /\ Forall (fun r => ~ stable (of_version r)) pres
     /\ StronglySorted not_below stables /\ StronglySorted not_below pres)
  /\ forall v, filter (same v) (newest_first l) = rev (filter (same v) l).
Proof.
  unfold newest_first. rewrite partition_filters. split.
  - do 2 eexists. split; [reflexivity|]. unfold stable, is_pre.
    split; [|split].
    + apply Forall_forall. intros r I. apply filter_In in I as [_ I]. now destruct (pre (of_version r)).
    + apply Forall_forall. intros r I. apply filter_In in I as [_ I]. now destruct (pre (of_version r)).
    + split; apply sorted_filter, sorted_rev, sort_releases_sorted.
  - intros v. rewrite (filters_same _ _ (is_pre v)).
    + rewrite filter_rev_. now rewrite sort_releases_same.
    + intros r S. apply same_spec in S as (_ & _ & _ & S). unfold is_pre. now rewrite S.
Qed.

(** ** Choosing *)
Lemma greatest_from_spec l : forall b, exists l1 l2, b :: l = l1 ++ greatest_from b l :: l2
  /\ Forall (fun w => ~ precedes (greatest_from b l) w) l1 /\ Forall (fun w => precedes w (greatest_from b l)) l2.
Proof.
  induction l as [|v l IH]; intros b; cbn [greatest_from].
  - exists [], []. auto.
  - destruct (IH (match cmp b v with Gt => b | _ => v end)) as (l1 & l2 & E & F1 & F2).
    remember (greatest_from (match cmp b v with Gt => b | _ => v end) l) as g eqn:Eg. clear Eg.
    destruct (cmp b v) eqn:C.
    + exists (b :: l1), l2. cbn. rewrite <- E. split; auto. split; auto. constructor; auto.
      apply cmp_eq in C. intros P. apply (same_precedence_precedes_r _ _ _ C) in P.
      destruct l1 as [|x l1]; cbn in E; injection E as E1 E2.
      * rewrite E1 in P. now apply precedes_irrefl in P.
      * subst x. inversion F1; subst. contradiction.
    + exists (b :: l1), l2. cbn. rewrite <- E. split; auto. split; auto. constructor; auto.
      apply cmp_lt in C. intros P. pose proof (precedes_trans _ _ _ P C) as Q.
      destruct l1 as [|x l1]; cbn in E; injection E as E1 E2.
      * rewrite E1 in Q. now apply precedes_irrefl in Q.
      * subst x. inversion F1; subst. contradiction.
    + apply cmp_gt in C. destruct l1 as [|x l1]; cbn in E; injection E as E1 E2.
      * subst. exists [], (v :: l2). auto.
      * subst x. exists (b :: v :: l1), l2. cbn. rewrite <- E2. split; auto. split; auto.
        inversion F1 as [|x y F F' EE]; subst. constructor; auto. constructor; auto.
        intros P. apply F. eapply precedes_trans; eauto.
Qed.

Lemma greatest_spec l v : greatest l = Some v -> exists l1 l2, l = l1 ++ v :: l2
  /\ Forall (fun w => ~ precedes v w) l1 /\ Forall (fun w => precedes w v) l2.
Proof.
  destruct l as [|b l]; [discriminate|]. intros [= <-]. apply greatest_from_spec.
Qed.

Lemma greatest_none l : greatest l = None <-> l = [].
Proof. destruct l; cbn; split; congruence. Qed.

Lemma precedes_asym v w : precedes v w -> ~ precedes w v.
Proof. intros P Q. apply (precedes_irrefl v). eapply precedes_trans; eauto. Qed.

Lemma greatest_best l v : greatest l = Some v -> In v l /\ forall w, In w l -> ~ precedes v w.
Proof.
  intros G. apply greatest_spec in G as (l1 & l2 & -> & F1 & F2). rewrite Forall_forall in F1, F2. split.
  - apply in_app_iff. right. now left.
  - intros w I. apply in_app_iff in I as [I|[<-|I]]; auto.
    + apply precedes_irrefl.
    + apply precedes_asym; auto.
Qed.

(** The versions among which [choose_version] chooses. *)
Definition candidate (c : context) (p : text) (r : range) (releases : list release) (v : version) : Prop :=
  (exists x, In x releases /\ of_version x = v) /\ contains r v = true
  /\ forall w, get p (exact_only c) = Some w -> w = v.

Lemma candidates c p r releases v :
  In v (filter (contains r)
    match get p (exact_only c) with
    | Some w => filter (version_eqb w) (map of_version releases)
    | None => map of_version releases
    end) <-> candidate c p r releases v.
Proof.
  unfold candidate. rewrite filter_In.
  assert (M : In v (map of_version releases) <-> exists x, In x releases /\ of_version x = v).
  { rewrite in_map_iff. split; intros (x & A & B); eauto. }
  destruct (get p (exact_only c)) as [w|].
  - rewrite filter_In, version_eqb_eq, M. split.
    + intros [[X ->] C]. repeat split; auto. intros w' [= <-]. reflexivity.
    + intros (X & C & E). repeat split; auto.
  - rewrite M. split; [intros [X C]; repeat split; auto; discriminate|tauto].
Qed.

Lemma is_pre_stable v : negb (is_pre v) = true <-> stable v.
Proof. unfold is_pre, stable. now destruct (pre v). Qed.

Lemma choose_version_spec c p r s :
  match choose_version c p r s with
  | None => get p (packages s) = None /\ remote c p = None
  | Some (o, s') => ensure_package_fetched c p s = Some s'
      /\ exists releases, get p (packages s') = Some releases
      /\ match o with
         | Some v => best (candidate c p r releases) v
         | None => forall v, ~ candidate c p r releases v
         end
  end.
Proof.
  unfold choose_version.
  assert (E : match ensure_package_fetched c p s with
    | None => get p (packages s) = None /\ remote c p = None
    | Some s' => exists l, get p (packages s') = Some l end).
  { unfold ensure_package_fetched. destruct (get p (packages s)) as [l|] eqn:G; [eauto|].
    destruct (remote c p) as [l|]; auto. cbn [packages]. rewrite get_insert, text_eqb_refl. eauto. }
  destruct (ensure_package_fetched c p s) as [s'|]; auto. destruct E as (l & E). rewrite E.
  set (potential := filter (contains r) _).
  assert (P : forall v, In v potential <-> candidate c p r l v) by (intros v; apply candidates).
  destruct (greatest (filter (fun v => negb (is_pre v)) potential)) as [v|] eqn:G.
  - split; auto. exists l. split; auto. apply greatest_best in G as [I M].
    apply filter_In in I as [I S]. apply is_pre_stable in S. split; [now apply P|]. split; auto.
    intros w W SW. apply M. apply filter_In. split; [now apply P|]. apply is_pre_stable. tauto.
  - apply greatest_none in G. assert (N : forall w, candidate c p r l w -> ~ stable w).
    { intros w W S. assert (I : In w []); [|destruct I]. rewrite <- G. apply filter_In. split; [now apply P|].
      now apply is_pre_stable. }
    split; auto. exists l. split; auto. destruct (greatest potential) as [v|] eqn:H.
    + apply greatest_best in H as [I M]. split; [now apply P|]. split; auto.
      intros w W _. apply M. now apply P.
    + apply greatest_none in H. intros v V. apply P in V. rewrite H in V. destruct V.
Qed.

(** ** Dependencies *)
Definition wanted (known : list (text * list release)) (n : text) (d : dependency) : Prop :=
  optional d = false \/ In n (map fst known).
Definition narrowed (opt : list (text * range)) (n : text) (r : range) : range :=
  match get n opt with Some other => Intersection r other | None => r end.

Lemma contains_key_spec {A} k (m : list (text * A)) : contains_key k m = true <-> In k (map fst m).
Proof.
  unfold contains_key. pose proof (get_none k m) as G. destruct (get k m) eqn:E.
  - split; auto. intros _. apply get_in in E. apply in_map_iff. now exists (k, a).
  - split; [discriminate|]. intros I. now apply G in I.
Qed.

Lemma wanted_test known n d : optional d && negb (contains_key n known) = false <-> wanted known n d.
Proof.
  unfold wanted. rewrite <- contains_key_spec. destruct (optional d), (contains_key n known); cbn; intuition congruence.
Qed.

Lemma collect_spec known l : forall deps opt deps' opt',
  NoDup (map fst l) -> (forall n, In n (map fst l) -> ~ In n (map fst deps)) ->
  collect known l deps opt = (deps', opt') ->
  (forall n r, In (n, r) deps' <-> In (n, r) deps \/ exists d, In (n, d) l /\ wanted known n d /\ r = narrowed opt n (allowed d))
  /\ (is_map deps -> is_map deps')
  /\ forall n, get n opt' = match get n l with
                            | None => get n opt
                            | Some d => if optional d && negb (contains_key n known)
                                        then Some (narrowed opt n (allowed d)) else None
                            end.
Proof.
  induction l as [|[m d] l IH]; intros deps opt deps' opt' ND DJ; cbn [collect].
  - intros [= <- <-]. split; [|split]; auto. intros n r. split; auto. intros [I|(d & [] & _)]. auto.
  - cbn in ND. inversion ND as [|x y N ND' E]; subst. clear ND.
    assert (F : forall n e, In (n, e) l -> n <> m).
    { intros n e I ->. apply N. apply in_map_iff. now exists (m, e). }
    assert (K : forall n, In n (map fst l) -> n <> m) by (intros n I ->; contradiction).
    assert (G0 : get m l = None) by now apply get_none.
    destruct (optional d && negb (contains_key m known)) eqn:W.
    + intros H.
      assert (Q : match get m opt with Some stored => Intersection (allowed d) stored | None => allowed d end
                  = narrowed opt m (allowed d)) by reflexivity.
      rewrite Q in H. apply IH in H as (A & B & C); [|auto|intros n I; apply DJ; now right].
      split; [|split]; auto.
      * intros n r. rewrite A. split.
        -- intros [I|(e & I & We & ->)]; auto. right. exists e. split; [now right|]. split; auto.
           unfold narrowed. rewrite get_insert. destruct (text_eqb m n) eqn:T; auto.
           apply text_eqb_eq in T. subst. now apply F in I.
        -- intros [I|(e & [[= <- <-]|I] & We & ->)]; auto.
           ++ apply wanted_test in We. congruence.
           ++ right. exists e. split; auto. split; auto. unfold narrowed. rewrite get_insert.
              destruct (text_eqb m n) eqn:T; auto. apply text_eqb_eq in T. subst. now apply F in I.
      * intros n. rewrite C. cbn [get]. unfold narrowed. rewrite !get_insert.
        destruct (text_eqb m n) eqn:T; auto. apply text_eqb_eq in T. subst. rewrite G0, W. reflexivity.
    + assert (Q : forall o, (match get m opt with
          | Some other => collect known l (insert m (Intersection (allowed d) other) deps) (remove m opt)
          | None => collect known l (insert m (allowed d) deps) opt
          end = o) -> exists opt1, collect known l (insert m (narrowed opt m (allowed d)) deps) opt1 = o
            /\ forall n, get n opt1 = if text_eqb m n then None else get n opt).
      { intros o <-. unfold narrowed. destruct (get m opt) as [other|] eqn:G.
        - exists (remove m opt). split; auto. intros n. now rewrite get_remove.
        - exists opt. split; auto. intros n. destruct (text_eqb m n) eqn:T; auto. apply text_eqb_eq in T. now subst. }
      intros H. apply Q in H as (opt1 & H & G). clear Q.
      apply IH in H as (A & B & C); [|auto|].
      2:{ intros n I. unfold insert. cbn. rewrite in_remove_key. intros [<-|[J _]].
          - now apply K in I.
          - revert J. apply DJ. now right. }
      assert (NM : forall n e, In (n, e) l -> narrowed opt1 n (allowed e) = narrowed opt n (allowed e)).
      { intros n e I. unfold narrowed. rewrite G. destruct (text_eqb m n) eqn:T; auto.
        apply text_eqb_eq in T. subst. now apply F in I. }
      split; [|split].
      * intros n r. rewrite A, in_insert. split.
        -- intros [[[-> ->]|[X I]]|(e & I & We & ->)]; auto.
           ++ right. exists d. split; [now left|]. split; auto. now apply wanted_test.
           ++ right. exists e. split; [now right|]. auto.
        -- intros [I|(e & [[= <- <-]|I] & We & ->)]; auto.
           ++ left. right. split; auto. intros ->. apply (DJ m); [now left|]. apply in_map_iff. now exists (m, r).
           ++ right. exists e. rewrite NM; auto.
      * intros M. apply B. now apply insert_map.
      * intros n. rewrite C. cbn [get]. unfold narrowed. rewrite !G. destruct (text_eqb m n) eqn:T; auto.
        apply text_eqb_eq in T. subst. now rewrite G0, W.
Qed.

Lemma narrowed_spec opt n r r' : with_remembered opt n r r' <-> r' = narrowed opt n r.
Proof.
  unfold with_remembered, narrowed. rewrite <- get_none. destruct (get n opt) as [o|]; split.
  - intros [[E _]|(o' & [= <-] & ->)]; [discriminate|reflexivity].
  - intros ->. right. eauto.
  - intros [[_ ->]|(o' & E & _)]; [reflexivity|discriminate].
  - auto.
Qed.

Lemma narrowed_contains opt n r x : contains (narrowed opt n r) x = true -> contains r x = true.
Proof.
  unfold narrowed. destruct (get n opt); auto. cbn. rewrite andb_true_iff. tauto.
Qed.

Lemma find_first v l :
  match find (fun r => version_eqb (of_version r) v) l with
  | Some x => first_release v l x
  | None => forall x, In x l -> of_version x <> v
  end.
Proof.
  induction l as [|y l IH]; cbn; [tauto|]. destruct (version_eqb (of_version y) v) eqn:E.
  - apply version_eqb_eq in E. exists [], l. repeat split; auto.
  - assert (N : of_version y <> v) by (intros F; apply version_eqb_eq in F; congruence).
    destruct (find _ l) as [x|].
    + destruct IH as (b & a & -> & V & F). exists (y :: b), a. repeat split; auto.
      intros z [<-|I]; auto.
    + intros x [<-|I]; auto.
Qed.

Lemma is_version_spec v o : is_version v o = true <-> o = Some v.
Proof.
  destruct o as [w|]; cbn; [|split; congruence]. rewrite version_eqb_eq. split; congruence.
Qed.

Lemma ensure_spec c p s :
  match ensure_package_fetched c p s with
  | None => get p (packages s) = None /\ remote c p = None
  | Some s' => optional_dependencies s' = optional_dependencies s
      /\ exists releases, get p (packages s') = Some releases
      /\ (get p (packages s) = Some releases
          \/ get p (packages s) = None /\ exists l, remote c p = Some l /\ releases = newest_first l)
      /\ (forall q, q <> p -> get q (packages s') = get q (packages s))
      /\ (is_map (packages s) -> is_map (packages s'))
  end.
Proof.
  unfold ensure_package_fetched. destruct (get p (packages s)) as [l|] eqn:G.
  - split; auto. exists l. auto.
  - destruct (remote c p) as [l|]; auto. cbn [packages optional_dependencies]. split; auto.
    exists (newest_first l). rewrite get_insert, text_eqb_refl. split; auto. split; [eauto|]. split.
    + intros q N. rewrite get_insert. destruct (text_eqb p q) eqn:T; auto. apply text_eqb_eq in T. congruence.
    + intros M. now apply insert_map.
Qed.

Lemma get_dependencies_spec c p v s :
  match get_dependencies c p v s with
  | None => ensure_package_fetched c p s = None
  | Some (d, s') => exists s1 releases, ensure_package_fetched c p s = Some s1
      /\ get p (packages s1) = Some releases
      /\ match d with
         | Unavailable => s' = s1
             /\ ((forall x, In x releases -> of_version x <> v)
                 \/ exists x, first_release v releases x /\ retired x = true /\ get p (locked c) <> Some v)
         | Available deps => exists x, first_release v releases x
             /\ (retired x = true -> get p (locked c) = Some v)
             /\ packages s' = packages s1
             /\ collect (packages s1) (requirements x) [] (optional_dependencies s1)
                = (deps, optional_dependencies s')
         end
  end.
Proof.
  unfold get_dependencies. pose proof (ensure_spec c p s) as E.
  destruct (ensure_package_fetched c p s) as [s1|]; auto. destruct E as (_ & l & G & _). rewrite G.
  pose proof (find_first v l) as F. destruct (find _ l) as [x|].
  - destruct (retired x && negb (is_version v (get p (locked c)))) eqn:R.
    + exists s1, l. split; auto. split; auto. split; auto. right. exists x. apply andb_true_iff in R as [R1 R2].
      split; auto. split; auto. intros L. apply is_version_spec in L. now rewrite L in R2.
    + destruct (collect _ _ _ _) as [deps opt] eqn:C. exists s1, l. split; auto. split; auto. exists x.
      split; auto. split; auto. intros RX. rewrite RX in R. cbn in R. apply negb_false_iff in R.
      now apply is_version_spec.
  - exists s1, l. auto.
Qed.

(** ** Sessions *)
Section Session.
Variables (rem : text -> option (list release)) (provided : list (text * list release)) (root : text)
  (of_root : release) (c : context).
Hypothesis same_remote : remote c = rem.
Hypothesis provided_map : is_map provided.

Definition fine (s : store) : Prop :=
  is_map (packages s)
  /\ (forall p l, get p (packages s) = Some l -> exists l0, lists rem provided root of_root p l0 /\ Permutation l l0)
  /\ (forall p, p = root \/ In p (map fst provided) -> get p (packages s) <> None).

Lemma lists_unique p l l' : lists rem provided root of_root p l -> lists rem provided root of_root p l' -> l = l'.
Proof.
  intros A B. destruct A as [|p l N I|p l N N' R]; inversion B as [|p' m M J|p' m M M' Q]; subst; try congruence.
  - apply (get_iff p _ _ provided_map) in I. apply (get_iff p _ _ provided_map) in J. congruence.
  - destruct M'. apply in_map_iff. now exists (p, l).
  - destruct N'. apply in_map_iff. now exists (p, l').
Qed.

Lemma fine_new : fine (new provided root [of_root]).
Proof.
  unfold fine, new. cbn [packages]. split; [now apply insert_map|]. split.
  - intros p l. rewrite get_insert. destruct (text_eqb root p) eqn:T.
    + apply text_eqb_eq in T. intros [= <-]. subst. eexists. split; [apply lists_root|auto].
    + apply text_eqb_neq in T. intros G. exists l. split; auto. apply lists_provided; auto. now apply get_in.
  - intros p H. rewrite get_insert. destruct (text_eqb root p) eqn:T; [discriminate|].
    apply text_eqb_neq in T. destruct H as [->|H]; [contradiction|]. rewrite get_none. tauto.
Qed.

Lemma fine_ensure p s s' : fine s -> ensure_package_fetched c p s = Some s' -> fine s'.
Proof.
  intros (M & L & K) E. pose proof (ensure_spec c p s) as H. rewrite E in H.
  destruct H as (_ & l & G & C & O & M'). split; auto. split.
  - intros q m Q. destruct (text_eq_dec q p) as [->|N].
    + destruct C as [C|(C & l0 & R & ->)]; [apply L; congruence|].
      exists l0. rewrite G in Q. injection Q as <-. split; [|apply newest_first_perm].
      rewrite same_remote in R. apply lists_remote; auto.
      * intros ->. apply (K root); auto.
      * intros I. apply (K p); auto.
    + rewrite O in Q by auto. auto.
  - intros q Q. destruct (text_eq_dec q p) as [->|N]; [congruence|]. rewrite O; auto.
Qed.

(** Everything that was answered had been looked up in a fine store. *)
Lemma session_calls s calls s' : session c s calls s' -> fine s ->
  (forall p r v, In (Chosen p r (Some v)) calls -> exists s1 s2, fine s1 /\ choose_version c p r s1 = Some (Some v, s2))
  /\ (forall p v d, In (Asked p v d) calls -> exists s1 s2, fine s1 /\ get_dependencies c p v s1 = Some (d, s2)).
Proof.
  assert (CH : forall p r s o s', choose_version c p r s = Some (o, s') -> fine s -> fine s').
  { intros p r s0 o s1 H F. pose proof (choose_version_spec c p r s0) as S. rewrite H in S.
    destruct S as [E _]. eapply fine_ensure; eauto. }
  assert (AS : forall p v s d s', get_dependencies c p v s = Some (d, s') -> fine s -> fine s').
  { intros p v s0 d s1 H F. pose proof (get_dependencies_spec c p v s0) as S. rewrite H in S.
    destruct S as (s2 & l & E & G & D). pose proof (fine_ensure _ _ _ F E) as F2.
    destruct d as [deps|].
    - destruct D as (x & _ & _ & P & _). unfold fine in *. now rewrite P.
    - destruct D as [-> _]. auto. }
  induction 1 as [s|s p r o s1 calls s2 C S IH|s p v d s1 calls s2 C S IH]; intros F; cbn.
  - split; intros; tauto.
  - destruct (IH (CH _ _ _ _ _ C F)) as [A B]. split.
    + intros q r' v [[= -> -> ->]|I]; eauto.
    + intros q v d [[=]|I]; eauto.
  - destruct (IH (AS _ _ _ _ _ C F)) as [A B]. split.
    + intros q r' w [[=]|I]; eauto.
    + intros q w d' [[= -> -> ->]|I]; eauto.
Qed.

(** What was known when a question was asked: the names of the earlier calls. *)
Lemma session_known s calls s' : session c s calls s' -> fine s ->
  forall before p v d after, calls = before ++ Asked p v d :: after ->
  exists s1 s2, fine s1 /\ get_dependencies c p v s1 = Some (d, s2)
    /\ forall n, In n (map about before) -> get n (packages s1) <> None.
Proof.
  assert (EN : forall p s s1, ensure_package_fetched c p s = Some s1 ->
    get p (packages s1) <> None /\ forall n, get n (packages s) <> None -> get n (packages s1) <> None).
  { intros p s0 s1 E. pose proof (ensure_spec c p s0) as H. rewrite E in H.
    destruct H as (_ & l & G & C & O & _). split; [congruence|]. intros n N.
    destruct (text_eq_dec n p) as [->|NP]; [congruence|]. now rewrite O. }
  assert (CH : forall p r s o s', choose_version c p r s = Some (o, s') -> fine s -> fine s'
    /\ get p (packages s') <> None /\ forall n, get n (packages s) <> None -> get n (packages s') <> None).
  { intros p r s0 o s1 H F. pose proof (choose_version_spec c p r s0) as S. rewrite H in S.
    destruct S as [E _]. split; [eapply fine_ensure; eauto|]. now apply EN. }
  assert (AS : forall p v s d s', get_dependencies c p v s = Some (d, s') -> fine s -> fine s'
    /\ get p (packages s') <> None /\ forall n, get n (packages s) <> None -> get n (packages s') <> None).
  { intros p v s0 d s1 H F. pose proof (get_dependencies_spec c p v s0) as S. rewrite H in S.
    destruct S as (s2 & l & E & G & D). pose proof (fine_ensure _ _ _ F E) as F2. apply EN in E.
    destruct d as [deps|].
    - destruct D as (x & _ & _ & P & _). unfold fine in *. now rewrite P.
    - destruct D as [-> _]. auto. }
  assert (GEN : forall s calls s', session c s calls s' -> fine s -> forall old,
    (forall n, In n old -> get n (packages s) <> None) ->
    forall before p v d after, calls = before ++ Asked p v d :: after ->
    exists s1 s2, fine s1 /\ get_dependencies c p v s1 = Some (d, s2)
      /\ forall n, In n old \/ In n (map about before) -> get n (packages s1) <> None).
  { clear s calls s'. induction 1 as [s|s p r o s1 calls s2 C S IH|s p v d s1 calls s2 C S IH];
      intros F old OLD before q w e after E.
    - destruct before; discriminate.
    - destruct before as [|b before]; [discriminate|]. cbn in E. injection E as <- ->.
      destruct (CH _ _ _ _ _ C F) as (F1 & P & K).
      destruct (IH F1 (p :: old)) with (before := before) (p := q) (v := w) (d := e) (after := after)
        as (s3 & s4 & F3 & D & Q); auto.
      { intros n [<-|I]; auto. }
      exists s3, s4. split; auto. split; auto. intros n [I|[<-|I]]; apply Q; cbn; auto.
    - destruct before as [|b before]; cbn in E.
      + injection E as -> -> -> ->. exists s, s1. split; auto. split; auto. intros n [I|[]]. auto.
      + injection E as <- ->. destruct (AS _ _ _ _ _ C F) as (F1 & P & K).
        destruct (IH F1 (p :: old)) with (before := before) (p := q) (v := w) (d := e) (after := after)
          as (s3 & s4 & F3 & D & Q); auto.
        { intros n [<-|I]; auto. }
        exists s3, s4. split; auto. split; auto. intros n [I|[<-|I]]; apply Q; cbn; auto. }
  intros S F before p v d after E.
  destruct (GEN s calls s' S F []) with (before := before) (p := p) (v := v) (d := d) (after := after)
    as (s1 & s2 & F1 & D & Q); auto.
  exists s1, s2. split; auto.
Qed.

(** The answers about the dependencies of a release. *)
Lemma asked_spec s p v deps s' : fine s ->
  (forall l x, lists rem provided root of_root p l -> In x l -> is_map (requirements x)) ->
  get_dependencies c p v s = Some (Available deps, s') ->
  exists l x, lists rem provided root of_root p l /\ In x l /\ of_version x = v
    /\ (retired x = true -> get p (locked c) = Some v)
    /\ forall n d, In (n, d) (requirements x) ->
       (optional d = false \/ n = p \/ get n (packages s) <> None) ->
       exists r, In (n, r) deps /\ forall w, contains r w = true -> contains (allowed d) w = true.
Proof.
  intros F RM H. pose proof (get_dependencies_spec c p v s) as S. rewrite H in S.
  destruct S as (s1 & l & E & G & x & (b & a & -> & V & FB) & R & P & C).
  pose proof (fine_ensure _ _ _ F E) as (M & L & K). destruct (L _ _ G) as (l0 & LS & PM).
  exists l0, x.
  assert (IX : In x l0) by (eapply Permutation_in; [exact PM|]; apply in_app_iff; right; now left).
  split; auto. split; auto. split; auto. split; auto.
  intros n d I W.
  apply collect_spec in C as (A & _ & _); [|apply RM with l0; auto|intros m _ []].
  exists (narrowed (optional_dependencies s1) n (allowed d)). split.
  - apply A. right. exists d. split; auto. split; auto.
    destruct W as [W|[->|W]]; [now left|right..].
    + apply get_in in G. apply in_map_iff. eexists. split; [|exact G]. reflexivity.
    + pose proof (ensure_spec c p s) as ES. rewrite E in ES. destruct ES as (_ & l' & G' & CC & O & _).
      assert (X : get n (packages s1) <> None).
      { destruct (text_eq_dec n p) as [->|N]; [congruence|]. now rewrite O. }
      destruct (get n (packages s1)) as [l2|] eqn:Q; [|congruence]. apply get_in in Q. apply in_map_iff.
      eexists. split; [|exact Q]. reflexivity.
  - intros w. apply narrowed_contains.
Qed.
End Session.

(** ** Texts around exact versions *)
Lemma trim_start_white w s : whitespace w -> trim_start (w ++ s) = trim_start s.
Proof. induction 1 as [|c w W F IH]; auto. cbn. now rewrite W. Qed.

Lemma trim_around w1 s w2 : whitespace w1 -> whitespace w2 -> s <> [] ->
  white (hd 0%N s) = false -> white (last s 0%N) = false -> trim (w1 ++ s ++ w2) = s.
Proof.
  intros W1 W2 N H L. unfold trim. rewrite trim_start_white by auto.
  destruct s as [|c s]; [congruence|]. cbn in H. cbn [app trim_start]. rewrite H.
  change (c :: s ++ w2) with ((c :: s) ++ w2). rewrite rev_app_distr.
  rewrite trim_start_white by now apply Forall_rev.
  assert (E : exists d r, rev (c :: s) = d :: r /\ d = last (c :: s) 0%N).
  { destruct (exists_last (l := c :: s)) as (r & d & E); [discriminate|]. rewrite E.
    exists d, (rev r). rewrite rev_app_distr, last_last. auto. }
  destruct E as (d & r & E & ->). rewrite E. cbn [trim_start]. rewrite L. rewrite <- E. apply rev_involutive.
Qed.

Lemma plain_ends s : s <> [] -> Forall plain_char s -> white (hd 0%N s) = false /\ white (last s 0%N) = false.
Proof.
  intros N F. destruct s as [|c s]; [congruence|]. split.
  - now inversion F as [|x y [W _] F' E].
  - destruct (exists_last (l := c :: s)) as (r & d & E); [discriminate|]. rewrite E, last_last.
    rewrite E in F. apply Forall_app in F as [_ F]. now inversion F as [|x y [W _] F' E'].
Qed.

Lemma without_equals_white w s : whitespace w -> without_equals (w ++ s) = w ++ without_equals s.
Proof.
  induction 1 as [|c w W F IH]; auto. cbn [app]. cbn [without_equals].
  assert (N : (c =? 61)%N = false) by (apply N.eqb_neq; intros ->; discriminate).
  rewrite N. cbn [andb]. rewrite IH. destruct (w ++ s) eqn:E; auto.
  destruct w; [|discriminate]. cbn in *. subst. reflexivity.
Qed.

Lemma exact_requirement v w1 (marked : bool) w w2 : readable v -> whitespace w1 -> whitespace w -> whitespace w2 ->
  parse_exact_version (w1 ++ (if marked then str "==" ++ w else []) ++ show v ++ w2) = Some v.
Proof.
  intros R W1 W W2. pose proof (readable_legal v R) as [L P]. pose proof (plain_show v L) as PL.
  destruct (show_first v) as (c & s & E & D).
  assert (NE : show v <> []) by (rewrite E; discriminate).
  destruct (plain_ends (show v) NE PL) as [H1 H2].
  unfold parse_exact_version. destruct marked.
  - rewrite (app_assoc (str "==" ++ w)), trim_around; auto.
    2:{ discriminate. }
    2:{ destruct (exists_last NE) as (r & d & E2). rewrite E2 in *. rewrite last_last in H2.
        now rewrite app_assoc, last_last. }
    cbn [str app Text.starts_with]. rewrite N.eqb_refl. cbn [andb orb].
    change (without_equals _) with (without_equals (w ++ show v)).
    rewrite without_equals_white by auto. rewrite without_plain by auto.
    rewrite <- (app_nil_r (w ++ show v)), <- app_assoc, trim_around; auto; [|constructor].
    now rewrite P.
  - cbn [app]. rewrite trim_around by auto. rewrite without_plain by auto. rewrite trim_plain by auto.
    rewrite P, E, D, orb_true_r. reflexivity.
Qed.

Lemma not_exact s : (forall r, trim s <> str "==" ++ r) -> (forall c r, trim s = c :: r -> is_digit c = false) ->
  parse_exact_version s = None.
Proof.
  intros A B. unfold parse_exact_version. destruct (Text.starts_with (str "==") (trim s)) eqn:S.
  - apply starts_with_spec in S as (r & S). now apply A in S.
  - destruct (trim s) as [|c r] eqn:T; auto. cbn [orb]. now rewrite (B c r eq_refl).
Qed.

(** ** Updates *)
Lemma versions_diff_spec rem major_only p v q w l : In (q, (w, l)) (versions_diff rem major_only (p, v)) <->
  q = p /\ w = v /\ exists releases, rem p = Some releases
    /\ greatest (filter (fun v => negb (is_pre v)) (map of_version releases)) = Some l
    /\ (if major_only then (major v < major l)%N else precedes v l).
Proof.
  unfold versions_diff. destruct (rem p) as [releases|].
  2:{ split; [intros []|intros (_ & _ & r & E & _); discriminate]. }
  destruct (greatest _) as [latest|] eqn:G.
  2:{ split; [intros []|intros (_ & _ & r & [= <-] & E & _); congruence]. }
  assert (T : (if major_only then (major latest <=? major v)%N else le latest v) = false <->
    (if major_only then (major v < major latest)%N else precedes v latest)).
  { destruct major_only; [apply N.leb_gt|apply le_false]. }
  destruct (if major_only then (major latest <=? major v)%N else le latest v) eqn:X.
  - split; [intros []|]. intros (_ & _ & r & [= <-] & E & Y). rewrite G in E. injection E as <-.
    apply T in Y. discriminate.
  - split.
    + intros [[= <- <- <-]|[]]. repeat split; auto. exists releases. repeat split; auto. now apply T.
    + intros (-> & -> & r & [= <-] & E & _). rewrite G in E. injection E as <-. now left.
Qed.

Lemma resolve_versions_diffs_spec rem versions major_only p v l :
  In (p, (v, l)) (resolve_versions_diffs rem versions major_only) <->
  In (p, v) versions /\ exists releases, rem p = Some releases
    /\ greatest (filter (fun v => negb (is_pre v)) (map of_version releases)) = Some l
    /\ (if major_only then (major v < major l)%N else precedes v l).
Proof.
  unfold resolve_versions_diffs. rewrite in_flat_map. split.
  - intros ([p' v'] & I & D). apply versions_diff_spec in D as (-> & -> & D). auto.
  - intros (I & D). exists (p, v). split; auto. apply versions_diff_spec. auto.
Qed.

Lemma to_map_spec {A} (l : list (text * A)) : forall m k a, NoDup (map fst l) ->
  (In (k, a) (to_map l m) <-> In (k, a) l \/ (In (k, a) m /\ ~ In k (map fst l))).
Proof.
  induction l as [|[j b] l IH]; intros m k a ND; cbn; [tauto|].
  cbn in ND. inversion ND as [|x y N ND' E]; subst. rewrite IH, in_insert by auto. split.
  - intros [I|[[[-> ->]|[NE I]] NI]]; auto. right. split; auto. intros [->|J]; auto.
  - intros [[[= <- <-]|I]|[I NI]]; auto.
    right. split; [|tauto]. right. split; auto.
Qed.

Lemma exists_trim u : exists a b, u = a ++ b /\ whitespace b /\ trim_start (rev u) = rev a.
Proof.
  assert (G : forall t, exists a b, t = b ++ a /\ whitespace b /\ trim_start t = a).
  { induction t as [|c t (a & b & -> & W & E)]; [exists [], []; repeat split; constructor|].
    cbn [trim_start]. destruct (white c) eqn:C.
    - exists a, (c :: b). repeat split; auto. constructor; auto.
    - exists (c :: b ++ a), []. repeat split; auto. constructor. }
  destruct (G (rev u)) as (a & b & E & W & T). exists (rev a), (rev b).
  rewrite <- rev_app_distr, <- E, rev_involutive. split; auto. split; [now apply Forall_rev|].
  now rewrite rev_involutive.
Qed.

Lemma resolved_setup rem provided root base locked0 calls selected :
  maps rem provided -> is_map locked0 -> resolved rem provided root base locked0 calls selected ->
  exists m c s s', root_dependencies base locked0 = Done m /\ is_map m
    /\ c = Context rem locked0 (exact_deps m)
    /\ session c s calls s' /\ fine rem provided root (Release root_version false m) s
    /\ (forall p, p = root \/ In p (map fst provided) -> get p (packages s) <> None)
    /\ solution root calls selected
    /\ (forall p l x, lists rem provided root (Release root_version false m) p l -> In x l -> is_map (requirements x)).
Proof.
  intros [PM RM] LM (c & s & s' & P & S & SOL).
  unfold provider in P. pose proof (root_dependencies_spec base locked0 LM) as R.
  destruct (root_dependencies base locked0) as [m|name]; [|discriminate]. injection P as <- <-.
  destruct R as (MM & _ & _). set (x := Release root_version false m) in *. set (c := Context _ _ _) in *.
  pose proof (fine_new rem provided root x c eq_refl PM) as F.
  exists m, c. do 2 eexists. split; auto. split; auto. split; auto. split; [exact S|]. split; auto.
  split; [apply F|]. split; auto.
  intros p l y LS I. destruct LS as [|p l N J|p l N N' J].
  - destruct I as [<-|[]]. exact MM.
  - apply (RM p l); auto.
  - apply (RM p l); auto.
Qed.

Lemma session_chosen rem provided root of_root c : remote c = rem ->
  forall s calls s', session c s calls s' -> fine rem provided root of_root s ->
  forall p r o, In (Chosen p r o) calls ->
  exists s1 s2, fine rem provided root of_root s1 /\ choose_version c p r s1 = Some (o, s2).
Proof.
  intros SR. induction 1 as [s|s p r o s1 calls s2 C S IH|s p v d s1 calls s2 C S IH]; intros F; cbn.
  - intros; tauto.
  - intros q r' o' [[= -> -> ->]|I]; eauto. apply IH; auto.
    pose proof (choose_version_spec c p r s) as Q. rewrite C in Q. destruct Q as [E _]. eapply fine_ensure; eauto.
  - intros q r' o' [[=]|I]. apply IH; auto.
    pose proof (get_dependencies_spec c p v s) as Q. rewrite C in Q.
    destruct Q as (s3 & l & E & G & D). pose proof (fine_ensure _ _ _ _ _ SR _ _ _ F E) as F2.
    destruct d as [deps|].
    + destruct D as (x & _ & _ & P & _). unfold fine in *. now rewrite P.
    + destruct D as [-> _]. auto.
Qed.
