(** C15, C16, C53, C54, C55: choosing versions of dependencies. *)
From Coq Require Import NArith Arith Bool String List Permutation Sorted Lia.
From Verif Require Import Text TextProofs Version VersionSpec VersionProofs Resolve ResolveSpec ResolveProofs.
Import ListNotations.
Local Open Scope nat_scope.
Local Open Scope list_scope.

(** C15: the requirements of the root are the locked versions, and the given requirements for
    packages that are not locked; the first requirement which a locked version does not meet is
    reported. *)
Theorem C15_root_requirements : forall base locked, is_map locked ->
  match root_dependencies base locked with
  | Incompatible name => exists before spec r after v,
      base = before ++ (name, (spec, r)) :: after /\ In (name, v) locked /\ contains r v = false
      /\ forall n s r' v', In (n, (s, r')) before -> In (n, v') locked -> contains r' v' = true
  | Done m => is_map m
      /\ (forall n s r v, In (n, (s, r)) base -> In (n, v) locked -> contains r v = true)
      /\ forall n d, In (n, d) m <->
           (exists v, In (n, v) locked /\ d = Dependency false (show v) (Singleton v))
           \/ (~ In n (map fst locked) /\ exists s r, last_for n (s, r) base /\ d = Dependency false s r)
  end.
Proof. exact root_dependencies_spec. Qed.
Print Assumptions C15_root_requirements.

(** What the solver finds with these requirements has the locked packages at exactly the locked
    versions, build metadata included. *)
Theorem C15_locked_versions_are_kept : forall rem provided root base locked calls selected,
  maps rem provided -> is_map locked -> resolved rem provided root base locked calls selected ->
  forall n v, In (n, v) locked -> n <> root -> readable v -> In (n, v) selected.
Proof.
  intros rem provided root base locked calls selected MAPS LM RES n v I NR RV.
  destruct (resolved_setup _ _ _ _ _ _ _ MAPS LM RES) as (m & c & s & s' & R & MM & C & S & F & _ & SOL & RM).
  pose proof (root_dependencies_spec base locked LM) as B. rewrite R in B. destruct B as (_ & _ & B).
  assert (D : In (n, exactly v) m) by (apply B; left; exists v; auto).
  assert (SR : remote c = rem) by now rewrite C.
  destruct (session_calls rem provided root _ c SR _ _ _ S F) as [CH AS].
  destruct (satisfied _ _ _ SOL _ _ (root_selected _ _ _ SOL)) as (deps & A & Q).
  apply AS in A as (s1 & s2 & F1 & A).
  destruct (asked_spec rem provided root _ c SR _ _ _ _ _ F1 (RM _) A) as (l & y & LS & IY & VY & _ & RQ).
  assert (Y : y = Release root_version false m).
  { inversion LS as [E|p l' N E1 E2|p l' N E1 E2]; subst; [|congruence..]. destruct IY as [<-|[]]. reflexivity. }
  subst y. destruct (RQ n (exactly v) D) as (r & IR & CR); [now left|].
  destruct (Q n r IR) as (w & W & CW).
  destruct (proposed _ _ _ SOL n w W NR) as (r' & P). apply CH in P as (s3 & s4 & F3 & P).
  pose proof (choose_version_spec c n r' s3) as CS. rewrite P in CS.
  destruct CS as (_ & rel & _ & (_ & _ & EX) & _).
  assert (E : v = w); [|now subst]. apply EX. rewrite C. cbn [exact_only].
  rewrite (exact_deps_get n (exactly v)) by auto. now apply exact_show.
Qed.
Print Assumptions C15_locked_versions_are_kept.

(** Requirements written as a version, with or without a leading [==], are exact: the package is
    held to that version. Texts that begin otherwise are not. *)
Theorem C15_exact_requirements : forall v w1 marked w w2,
  readable v -> whitespace w1 -> whitespace w -> whitespace w2 ->
  parse_exact_version (w1 ++ (if marked : bool then str "==" ++ w else []) ++ show v ++ w2) = Some v.
Proof. exact exact_requirement. Qed.
Print Assumptions C15_exact_requirements.

Theorem C15_other_requirements : forall w s,
  whitespace w -> (forall r, s <> str "==" ++ r) -> (forall c r, s = c :: r -> white c = false /\ is_digit c = false) ->
  parse_exact_version (w ++ s) = None.
Proof.
  intros w s W A B.
  assert (T : forall u, trim_start (rev u) = [] \/ exists c r x, u = c :: r /\ rev (trim_start (rev u)) = c :: x
                /\ exists y, r = x ++ y).
  { intros u. destruct (exists_trim u) as (a & b & -> & HB & E). destruct a as [|c a].
    - left. rewrite E. reflexivity.
    - right. exists c, (a ++ b), a. split; auto. split; [|eauto]. rewrite E. now rewrite rev_involutive. }
  apply not_exact; unfold trim; rewrite trim_start_white by auto.
  - intros r E. destruct s as [|c s]; [discriminate E|]. destruct (B c s eq_refl) as [BW _].
    cbn [trim_start] in E. rewrite BW in E.
    destruct (T (c :: s)) as [Z|(c' & r' & x & [= <- <-] & E2 & y & Y)].
    + rewrite Z in E. discriminate E.
    + rewrite E in E2. cbn in E2. injection E2 as <- <-. apply (A (r ++ y)). now rewrite Y.
  - intros d r E. destruct s as [|c s]; [discriminate E|]. destruct (B c s eq_refl) as [BW BD].
    cbn [trim_start] in E. rewrite BW in E.
    destruct (T (c :: s)) as [Z|(c' & r' & x & [= <- <-] & E2 & _)].
    + rewrite Z in E. discriminate E.
    + rewrite E in E2. now injection E2 as -> _.
Qed.
Print Assumptions C15_other_requirements.

(** C16: the releases of a package are kept in order: stable ones, then pre-releases, both from the
    newest to the oldest, and releases of one precedence in reverse. *)
Theorem C16_candidates_are_sorted : forall l,
  Permutation (newest_first l) l
  /\ (exists stables pres, newest_first l = stables ++ pres
       /\ Forall (fun r => stable (of_version r)) stables /\ Forall (fun r => ~ stable (of_version r)) pres
       /\ StronglySorted (fun a b => ~ precedes (of_version a) (of_version b)) stables
       /\ StronglySorted (fun a b => ~ precedes (of_version a) (of_version b)) pres)
  /\ forall v, filter (fun r => match cmp (of_version r) v with Eq => true | _ => false end) (newest_first l)
             = rev (filter (fun r => match cmp (of_version r) v with Eq => true | _ => false end) l).
Proof. intros l. split; [apply newest_first_perm|exact (newest_first_spec l)]. Qed.
Print Assumptions C16_candidates_are_sorted.

(** Of the releases that exist, are in the range, and if a version was asked for exactly are of that
    version, the solver is given the highest stable one, or the highest if none is stable, or
    none if there are none. *)
Theorem C16_the_best_release_is_chosen : forall rem provided root base locked calls c s s',
  is_map provided -> is_map locked ->
  provider rem provided root base locked = Done (c, s) -> session c s calls s' ->
  forall p r o, In (Chosen p r o) calls ->
  exists m l, root_dependencies base locked = Done m
    /\ lists rem provided root (Release root_version false m) p l
    /\ let candidate v := (exists x, In x l /\ of_version x = v) /\ contains r v = true
         /\ (forall d w, In (p, d) m -> parse_exact_version (spec d) = Some w -> w = v) in
       match o with
       | Some v => best candidate v
       | None => forall v, ~ candidate v
       end.
Proof.
  intros rem provided root base locked calls c s s' PM LM P S p r o I.
  unfold provider in P. pose proof (root_dependencies_spec base locked LM) as R.
  destruct (root_dependencies base locked) as [m|name]; [|discriminate]. injection P as <- <-.
  destruct R as (MM & _ & _). set (x := Release root_version false m) in *. set (c := Context _ _ _) in *.
  pose proof (fine_new rem provided root x c eq_refl PM) as F.
  exists m.
  assert (G : exists s1 s2, fine rem provided root x s1 /\ choose_version c p r s1 = Some (o, s2)).
  { eapply session_chosen; eauto. }
  destruct G as (s1 & s2 & F1 & CV). pose proof (choose_version_spec c p r s1) as CS. rewrite CV in CS.
  destruct CS as (E & rel & G & B). pose proof (fine_ensure _ _ _ _ c eq_refl _ _ _ F1 E) as (_ & L & _).
  destruct (L _ _ G) as (l & LS & PL). exists l. split; auto. split; auto. cbn zeta.
  assert (Q : forall v, candidate c p r rel v <-> (exists x, In x l /\ of_version x = v) /\ contains r v = true
         /\ (forall d w, In (p, d) m -> parse_exact_version (spec d) = Some w -> w = v)).
  { intros v. unfold candidate.
    assert (Q1 : (exists x, In x rel /\ of_version x = v) <-> (exists x, In x l /\ of_version x = v)).
    { split; intros (y & IY & VY); exists y; split; auto.
      - eapply Permutation_in; eauto.
      - eapply Permutation_in; [symmetry|]; eauto. }
    rewrite Q1. cbn [exact_only c].
    assert (Q2 : (forall w, get p (exact_deps m) = Some w -> w = v) <->
      (forall d w, In (p, d) m -> parse_exact_version (spec d) = Some w -> w = v)).
    { split.
      - intros H d w J X. apply H. now rewrite (exact_deps_get p d).
      - intros H w X. assert (K : In p (map fst m)).
        { apply exact_deps_keys. apply get_in in X. apply in_map_iff. now exists (p, w). }
        apply in_map_iff in K as ([p' d] & E1 & J). cbn in E1. subst p'.
        rewrite (exact_deps_get p d) in X by auto. eauto. }
    now rewrite Q2. }
  destruct o as [v|].
  - destruct B as (B1 & B2 & B3). split; [now apply Q|]. split.
    + destruct B2 as [B2|B2]; [now left|right]. intros w W. apply B2. now apply Q.
    + intros w W. apply B3. now apply Q.
  - intros v V. apply (B v). now apply Q.
Qed.
Print Assumptions C16_the_best_release_is_chosen.

(** C53: whatever the solver finds with the answers of the provider consists of releases that exist,
    of which only locked ones are retired, together with all they require. *)
Theorem C53_resolved_versions_satisfy_requirements : forall rem provided root base locked calls selected,
  maps rem provided -> is_map locked -> resolved rem provided root base locked calls selected ->
  exists m, root_dependencies base locked = Done m
  /\ forall p v, In (p, v) selected ->
     exists l x, lists rem provided root (Release root_version false m) p l /\ In x l /\ of_version x = v
       /\ (retired x = true -> In (p, v) locked)
       /\ forall n d, In (n, d) (requirements x) -> optional d = false ->
          exists w, In (n, w) selected /\ contains (allowed d) w = true.
Proof.
  intros rem provided root base locked calls selected MAPS LM RES.
  destruct (resolved_setup _ _ _ _ _ _ _ MAPS LM RES) as (m & c & s & s' & R & MM & C & S & F & _ & SOL & RM).
  exists m. split; auto. intros p v I. assert (SR : remote c = rem) by now rewrite C.
  destruct (session_calls rem provided root _ c SR _ _ _ S F) as [_ AS].
  destruct (satisfied _ _ _ SOL _ _ I) as (deps & A & Q).
  apply AS in A as (s1 & s2 & F1 & A).
  destruct (asked_spec rem provided root _ c SR _ _ _ _ _ F1 (RM _) A) as (l & x & LS & IY & VY & RT & RQ).
  exists l, x. split; auto. split; auto. split; auto. split.
  - intros T. apply get_in. rewrite C in RT. now apply RT.
  - intros n d J O. destruct (RQ n d J) as (r & IR & CR); auto. destruct (Q n r IR) as (w & W & CW). eauto.
Qed.
Print Assumptions C53_resolved_versions_satisfy_requirements.

(** The dependencies the provider names for a release, exactly. *)
Theorem C53_dependencies_of_a_release : forall c p v s d s',
  get_dependencies c p v s = Some (d, s') ->
  (forall l x, get p (packages s') = Some l -> In x l -> is_map (requirements x)) ->
  exists releases, get p (packages s') = Some releases /\
  match d with
  | Unavailable => optional_dependencies s' = optional_dependencies s
      /\ ((forall x, In x releases -> of_version x <> v)
          \/ exists x, first_release v releases x /\ retired x = true /\ get p (locked c) <> Some v)
  | Available deps => exists x, first_release v releases x
      /\ (retired x = true -> get p (locked c) = Some v)
      /\ is_map deps
      /\ (forall n r, In (n, r) deps <-> exists q, In (n, q) (requirements x)
            /\ (optional q = false \/ In n (map fst (packages s')))
            /\ with_remembered (optional_dependencies s) n (allowed q) r)
      /\ (forall n r, get n (optional_dependencies s') = Some r <->
            (get n (optional_dependencies s) = Some r /\ ~ In n (map fst (requirements x)))
            \/ exists q, In (n, q) (requirements x) /\ optional q = true /\ ~ In n (map fst (packages s'))
                 /\ with_remembered (optional_dependencies s) n (allowed q) r)
  end.
Proof.
  intros c p v s d s' H RM. pose proof (get_dependencies_spec c p v s) as G. rewrite H in G.
  destruct G as (s1 & l & E & G & D). pose proof (ensure_spec c p s) as ES. rewrite E in ES.
  destruct ES as (OE & _). destruct d as [deps|].
  - destruct D as (x & FX & RT & P & C). rewrite P in *. exists l. split; auto. exists x. split; auto. split; auto.
    assert (IX : In x l). { destruct FX as (b & a & -> & _). apply in_app_iff. right. now left. }
    pose proof (RM l x G IX) as MX. rewrite OE in C.
    apply collect_spec in C as (A & B & O); [|exact MX|intros m _ []].
    split; [apply B; constructor|]. split.
    + intros n r. rewrite A. split.
      * intros [[]|(q & IQ & W & ->)]. exists q. split; auto. split; auto. now apply narrowed_spec.
      * intros (q & IQ & W & N). right. exists q. split; auto. split; auto. now apply narrowed_spec.
    + intros n r. rewrite O. destruct (get n (requirements x)) as [q|] eqn:GQ.
      * apply get_in in GQ. assert (K : In n (map fst (requirements x))) by (apply in_map_iff; now exists (n, q)).
        destruct (optional q && negb (contains_key n (packages s1))) eqn:T.
        -- apply andb_true_iff in T as [T1 T2]. apply negb_true_iff in T2.
           split.
           ++ intros [= <-]. right. exists q. split; auto. split; auto. split; [|now apply narrowed_spec].
              intros J. apply contains_key_spec in J. congruence.
           ++ intros [[_ N]|(q' & IQ & _ & _ & N)]; [contradiction|].
              apply (get_iff _ _ _ MX) in IQ. apply (get_iff _ _ _ MX) in GQ.
              apply narrowed_spec in N. congruence.
        -- split; [discriminate|]. intros [[_ N]|(q' & IQ & O1 & N1 & _)]; [contradiction|].
           apply (get_iff _ _ _ MX) in IQ. apply (get_iff _ _ _ MX) in GQ.
           assert (q' = q) by congruence. subst q'. rewrite O1 in T. cbn in T. apply negb_false_iff in T.
           apply contains_key_spec in T. contradiction.
      * apply get_none in GQ. split; [auto|].
        intros [[Y _]|(q & IQ & _)]; auto. destruct GQ. apply in_map_iff. now exists (n, q).
  - destruct D as (-> & D). exists l. auto.
Qed.
Print Assumptions C53_dependencies_of_a_release.

(** C54: an optional requirement is respected if the package it is about was known to the
    provider before the requirement was first seen. *)
Theorem C54_optional_requirements_are_respected_partial :
  forall rem provided root base locked calls selected,
  maps rem provided -> is_map locked -> resolved rem provided root base locked calls selected ->
  exists m, root_dependencies base locked = Done m
  /\ forall p v, In (p, v) selected ->
     exists l x, lists rem provided root (Release root_version false m) p l /\ In x l /\ of_version x = v
       /\ forall n d, In (n, d) (requirements x) ->
          (n = root \/ In n (map fst provided) \/ n = p
           \/ forall before a after, calls = before ++ Asked p v a :: after -> In n (map about before)) ->
          exists w, In (n, w) selected /\ contains (allowed d) w = true.
Proof.
  intros rem provided root base locked calls selected MAPS LM RES.
  destruct (resolved_setup _ _ _ _ _ _ _ MAPS LM RES) as (m & c & s & s' & R & MM & C & S & F & _ & SOL & RM).
  exists m. split; auto. intros p v I. assert (SR : remote c = rem) by now rewrite C.
  destruct (satisfied _ _ _ SOL _ _ I) as (deps & A & Q).
  apply in_split in A as (before & after & E).
  destruct (session_known rem provided root _ c SR _ _ _ S F _ _ _ _ _ E) as (s1 & s2 & F1 & A & K).
  destruct (asked_spec rem provided root _ c SR _ _ _ _ _ F1 (RM _) A) as (l & x & LS & IY & VY & _ & RQ).
  exists l, x. split; auto. split; auto. split; auto.
  intros n d J W. destruct (RQ n d J) as (r & IR & CR).
  { right. destruct W as [W|[W|[W|W]]].
    - right. apply F1. auto.
    - right. apply F1. auto.
    - auto.
    - right. apply K. eapply W; eauto. }
  destruct (Q n r IR) as (w & X & CW). eauto.
Qed.
Print Assumptions C54_optional_requirements_are_respected_partial.

(** ** A concrete resolution *)
Definition v123 (a b c : N) : version := Version a b c [] None.
Definition at_least (v : version) : dependency := Dependency false (str ">= " ++ show v) (HigherThan v).
Definition perhaps_below (v : version) : dependency := Dependency true (str "< " ++ show v) (StrictlyLowerThan v).

(** [a] can be used with [x] below 2.0.0, [b] requires [x]. *)
Definition shop (p : text) : option (list release) :=
  if text_eqb p (str "a") then Some [Release (v123 1 0 0) false [(str "x", perhaps_below (v123 2 0 0))]]
  else if text_eqb p (str "b") then Some [Release (v123 1 0 0) false [(str "x", at_least (v123 1 0 0))]]
  else if text_eqb p (str "x") then
    Some [Release (v123 1 0 0) false []; Release (Version 3 0 0 [AlphaNumeric (str "rc1")] None) false [];
          Release (v123 2 0 0) false []; Release (v123 1 5 0) true []]
  else None.
Definition any_a_and_b : list (text * (text * range)) :=
  [(str "a", (str ">= 1.0.0", HigherThan (v123 1 0 0))); (str "b", (str ">= 1.0.0", HigherThan (v123 1 0 0)))].
Definition app : text := str "app".

Definition b_before_a : list call :=
  [Chosen app (Singleton root_version) (Some root_version);
   Asked app root_version (Available [(str "a", HigherThan (v123 1 0 0)); (str "b", HigherThan (v123 1 0 0))]);
   Chosen (str "b") (HigherThan (v123 1 0 0)) (Some (v123 1 0 0));
   Asked (str "b") (v123 1 0 0) (Available [(str "x", HigherThan (v123 1 0 0))]);
   Chosen (str "a") (HigherThan (v123 1 0 0)) (Some (v123 1 0 0));
   Asked (str "a") (v123 1 0 0) (Available []);
   Chosen (str "x") (HigherThan (v123 1 0 0)) (Some (v123 2 0 0));
   Asked (str "x") (v123 2 0 0) (Available [])].
Definition b_before_a_selected : list (text * version) :=
  [(app, root_version); (str "a", v123 1 0 0); (str "b", v123 1 0 0); (str "x", v123 2 0 0)].

Ltac replay := first [apply session_end
  | eapply session_choose; [reflexivity|replay] | eapply session_ask; [reflexivity|replay]].

Lemma b_before_a_resolved : resolved shop [] app any_a_and_b [] b_before_a b_before_a_selected.
Proof.
  unfold resolved. do 3 eexists. split; [reflexivity|]. split; [unfold b_before_a; replay|].
  split.
  - unfold is_map. cbn. repeat constructor; cbn; intuition discriminate.
  - now left.
  - intros p v [[= <- <-]|[[= <- <-]|[[= <- <-]|[[= <- <-]|[]]]]] N.
    + now destruct N.
    + exists (HigherThan (v123 1 0 0)). cbn. tauto.
    + exists (HigherThan (v123 1 0 0)). cbn. tauto.
    + exists (HigherThan (v123 1 0 0)). cbn. tauto.
  - intros p v [[= <- <-]|[[= <- <-]|[[= <- <-]|[[= <- <-]|[]]]]]; eexists.
    + split; [right; left; reflexivity|]. intros q r [[= <- <-]|[[= <- <-]|[]]];
        exists (v123 1 0 0); (split; [cbn; tauto|reflexivity]).
    + split; [do 5 right; left; reflexivity|]. intros q r [].
    + split; [do 3 right; left; reflexivity|]. intros q r [[= <- <-]|[]].
      exists (v123 2 0 0); (split; [cbn; tauto|reflexivity]).
    + split; [do 7 right; left; reflexivity|]. intros q r [].
Qed.

Lemma shop_maps : maps shop [].
Proof.
  split; [constructor|]. intros p l x [[]|E]. unfold shop in E.
  destruct (text_eqb p (str "a")); [injection E as <-|destruct (text_eqb p (str "b")); [injection E as <-|
    destruct (text_eqb p (str "x")); [injection E as <-|discriminate]]]; cbn; intros I;
    repeat (destruct I as [<-|I]; [repeat constructor; cbn; tauto|]); destruct I.
Qed.

(** C54 in full, which the code does not do: [a] is asked about while [x] is already required but
    its releases have not been looked up; that [a] cannot be used with [x] from 2.0.0 on is only
    remembered in case another package requires [x], and 2.0.0 is found. *)
Theorem C54_optional_requirements_are_respected_refuted :
  exists rem provided root base locked calls selected,
  maps rem provided /\ is_map locked /\ resolved rem provided root base locked calls selected
  /\ exists p v n w l x d, In (p, v) selected /\ In (n, w) selected /\ rem p = Some l /\ l = [x]
     /\ of_version x = v /\ In (n, d) (requirements x) /\ optional d = true /\ contains (allowed d) w = false.
Proof.
  exists shop, [], app, any_a_and_b, [], b_before_a, b_before_a_selected.
  split; [apply shop_maps|]. split; [constructor|]. split; [apply b_before_a_resolved|].
  exists (str "a"), (v123 1 0 0), (str "x"), (v123 2 0 0). do 3 eexists.
  split; [cbn; tauto|]. split; [cbn; tauto|]. split; [reflexivity|]. split; [reflexivity|].
  split; [reflexivity|]. split; [now left|]. split; reflexivity.
Qed.
Print Assumptions C54_optional_requirements_are_respected_refuted.

(** With the other order the optional requirement reaches the solver. *)
Example C54_example :
  let asked p v s := match s with
    | Some s => match get_dependencies (Context shop [] []) (str p) v s with
                | Some (Available d, s') => Some (d, s')
                | _ => None end
    | None => None end in
  exists s1 s2, asked "a"%string (v123 1 0 0) (Some (new [] app [])) = Some ([], s1)
    /\ asked "b"%string (v123 1 0 0) (Some s1)
       = Some ([(str "x", Intersection (HigherThan (v123 1 0 0)) (StrictlyLowerThan (v123 2 0 0)))], s2).
Proof. do 2 eexists. split; reflexivity. Qed.

(** [x] is locked to the retired 1.5.0, and stays there although 2.0.0 is newer; a requirement of at
    least 2.0.0 is an error. *)
Example C15_example :
  let lock := [(str "x", v123 1 5 0)] in
  match provider shop [] app any_a_and_b lock with
  | Done (c, s) => exists s', choose_version c (str "x") (HigherThan (v123 1 0 0)) s = Some (Some (v123 1 5 0), s')
      /\ exists s'', get_dependencies c (str "x") (v123 1 5 0) s = Some (Available [], s'')
  | Incompatible _ => False
  end
  /\ provider shop [] app [(str "x", (str ">= 2.0.0", HigherThan (v123 2 0 0)))] lock = Incompatible (str "x")
  /\ parse_exact_version (str " == 1.2.3-rc1 ") = Some (Version 1 2 3 [AlphaNumeric (str "rc1")] None)
  /\ parse_exact_version (str ">= 1.2.3") = None.
Proof.
  split; [|repeat split; reflexivity]. cbn -[choose_version get_dependencies].
  eexists. split; [reflexivity|]. eexists. reflexivity.
Qed.

(** The pre-release 3.0.0-rc1 is taken only when nothing else is in range; a retired release is offered,
    but has no dependencies unless it is locked. *)
Example C16_example :
  let chosen r := option_map fst (choose_version (Context shop [] []) (str "x") r (new [] app [])) in
  chosen (HigherThan (v123 1 0 0)) = Some (Some (v123 2 0 0))
  /\ chosen (HigherThan (v123 2 0 1)) = Some (Some (Version 3 0 0 [AlphaNumeric (str "rc1")] None))
  /\ chosen (HigherThan (v123 3 0 0)) = Some None
  /\ chosen (StrictlyLowerThan (v123 2 0 0)) = Some (Some (v123 1 5 0)).
Proof. repeat split. Qed.
Example C53_example :
  option_map fst (get_dependencies (Context shop [] []) (str "x") (v123 1 5 0) (new [] app [])) = Some Unavailable
  /\ option_map fst (get_dependencies (Context shop [] []) (str "x") (v123 1 4 0) (new [] app [])) = Some Unavailable
  /\ exists m, root_dependencies any_a_and_b [] = Done m /\ In (str "x", v123 2 0 0) b_before_a_selected.
Proof. split; [reflexivity|]. split; [reflexivity|]. eexists. split; [reflexivity|cbn; tauto]. Qed.

(** C55: the updates reported are exactly the packages whose highest stable release is newer than
    the locked version, and with the check for major versions of a higher major version. *)
Definition update (rem : text -> option (list release)) (major_only : bool) (p : text) (v latest : version) : Prop :=
  exists releases, rem p = Some releases
  /\ (exists before after, map of_version releases = before ++ latest :: after /\ stable latest
       /\ (forall w, In w before -> stable w -> ~ precedes latest w)
       /\ (forall w, In w after -> stable w -> precedes w latest))
  /\ if major_only then (major v < major latest)%N else precedes v latest.

Lemma greatest_stable l latest : greatest (filter (fun v => negb (is_pre v)) l) = Some latest <->
  exists before after, l = before ++ latest :: after /\ stable latest
       /\ (forall w, In w before -> stable w -> ~ precedes latest w)
       /\ (forall w, In w after -> stable w -> precedes w latest).
Proof.
  split.
  - intros G. apply greatest_spec in G as (l1 & l2 & E & F1 & F2).
    assert (Q : exists before after, l = before ++ latest :: after /\ negb (is_pre latest) = true
      /\ filter (fun v => negb (is_pre v)) before = l1 /\ filter (fun v => negb (is_pre v)) after = l2).
    { clear F1 F2. revert l1 E. induction l as [|x l IH]; cbn; intros l1 E; [destruct l1; discriminate|].
      destruct (negb (is_pre x)) eqn:X.
      - destruct l1 as [|y l1]; cbn in E; injection E as -> E.
        + exists [], l. auto.
        + destruct (IH l1 E) as (b & a & -> & L & B & A). exists (y :: b), a. cbn. rewrite X, B. auto.
      - destruct (IH l1 E) as (b & a & -> & L & B & A). exists (x :: b), a. cbn. rewrite X, B. auto. }
    destruct Q as (b & a & -> & L & <- & <-). exists b, a. rewrite Forall_forall in F1, F2.
    split; auto. split; [now apply is_pre_stable|]. split; intros w I S; apply is_pre_stable in S.
    + apply F1. now apply filter_In.
    + apply F2. now apply filter_In.
  - intros (b & a & -> & L & B & A). apply is_pre_stable in L.
    rewrite filter_app. cbn. rewrite L.
    destruct (greatest _) as [g|] eqn:G.
    + apply greatest_spec in G as (l1 & l2 & E & F1 & F2). f_equal.
      assert (B' : Forall (fun w => ~ precedes latest w) (filter (fun v => negb (is_pre v)) b)).
      { apply Forall_forall. intros w I. apply filter_In in I as [I S]. apply B; auto. now apply is_pre_stable. }
      assert (A' : Forall (fun w => precedes w latest) (filter (fun v => negb (is_pre v)) a)).
      { apply Forall_forall. intros w I. apply filter_In in I as [I S]. apply A; auto. now apply is_pre_stable. }
      revert l1 E F1. induction B' as [|x m X B' IH]; cbn; intros l1 E F1.
      * destruct l1 as [|y l1]; cbn in E; injection E as E1 E2; auto. subst y.
        assert (I : In g (filter (fun v => negb (is_pre v)) a)) by (rewrite E2; apply in_app_iff; right; now left).
        rewrite Forall_forall in A'. apply A' in I. inversion F1; subst. contradiction.
      * destruct l1 as [|y l1]; cbn in E; injection E as E1 E2.
        -- subst x. rewrite <- E2 in F2. apply Forall_app in F2 as [_ F2]. inversion F2; subst. contradiction.
        -- inversion F1; subst. eauto.
    + apply greatest_none in G. destruct (filter _ b); discriminate.
Qed.

Theorem C55_major_updates : forall rem pkgs required, NoDup (map mname pkgs) ->
  forall n v latest, In (n, (v, latest)) (check_for_major_version_updates rem pkgs required) <->
  In (ManifestPackage n v true) pkgs /\ In n required /\ update rem true n v latest.
Proof.
  intros rem pkgs required ND n v latest. unfold check_for_major_version_updates.
  rewrite resolve_versions_diffs_spec. setoid_rewrite greatest_stable. fold (update rem true n v latest).
  rewrite to_map_spec.
  2:{ rewrite map_map. cbn. clear - ND. induction pkgs as [|p pkgs IH]; cbn; [constructor|].
      cbn in ND. inversion ND as [|x y N ND' E]; subst. destruct (is_hex p && _); cbn; auto. constructor; auto.
      intros I. apply N. apply in_map_iff in I as (q & E & I). apply filter_In in I as [I _].
      apply in_map_iff. eauto. }
  assert (Q : In (n, v) (map (fun p => (mname p, mversion p))
      (filter (fun p => is_hex p && existsb (fun r => text_eqb (mname p) r) required) pkgs))
    <-> In (ManifestPackage n v true) pkgs /\ In n required).
  { rewrite in_map_iff. split.
    - intros ([n' v' h] & [= -> ->] & I). apply filter_In in I as [I T]. cbn in T.
      apply andb_true_iff in T as [-> T]. split; auto. apply existsb_exists in T as (r & R & T).
      apply text_eqb_eq in T. now subst.
    - intros [I R]. exists (ManifestPackage n v true). split; auto. apply filter_In. split; auto. cbn.
      apply existsb_exists. exists n. split; auto. apply text_eqb_refl. }
  rewrite Q. split; [intros [[[A B]|[[] _]] C]; auto|tauto].
Qed.
Print Assumptions C55_major_updates.

Theorem C55_updates : forall rem pkgs, NoDup (map mname pkgs) ->
  forall n v latest, In (n, (v, latest)) (check_for_version_updates rem pkgs) <->
  In (ManifestPackage n v true) pkgs /\ update rem false n v latest.
Proof.
  intros rem pkgs ND n v latest. unfold check_for_version_updates.
  rewrite resolve_versions_diffs_spec. setoid_rewrite greatest_stable. fold (update rem false n v latest).
  rewrite to_map_spec.
  2:{ rewrite map_map. cbn. clear - ND. induction pkgs as [|p pkgs IH]; cbn; [constructor|].
      cbn in ND. inversion ND as [|x y N ND' E]; subst. destruct (is_hex p); cbn; auto. constructor; auto.
      intros I. apply N. apply in_map_iff in I as (q & E & I). apply filter_In in I as [I _].
      apply in_map_iff. eauto. }
  assert (Q : In (n, v) (map (fun p => (mname p, mversion p)) (filter is_hex pkgs))
    <-> In (ManifestPackage n v true) pkgs).
  { rewrite in_map_iff. split.
    - intros ([n' v' h] & [= -> ->] & I). apply filter_In in I as [I T]. cbn in T. now subst.
    - intros I. exists (ManifestPackage n v true). split; auto. now apply filter_In. }
  rewrite Q. split; [intros [[A|[[] _]] C]; auto|tauto].
Qed.
Print Assumptions C55_updates.

Example C55_example :
  check_for_version_updates shop [ManifestPackage (str "x") (v123 1 0 0) true; ManifestPackage (str "a") (v123 1 0 0) true]
    = [(str "x", (v123 1 0 0, v123 2 0 0))]
  /\ check_for_major_version_updates shop [ManifestPackage (str "x") (v123 2 0 0) true] [str "x"] = []
  /\ check_for_major_version_updates shop [ManifestPackage (str "x") (v123 1 9 0) true] [str "x"]
    = [(str "x", (v123 1 9 0, v123 2 0 0))].
Proof. repeat split. Qed.
