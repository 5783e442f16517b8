(** Proofs about the changes between two manifests. *)
From Coq Require Import NArith Arith Bool List Lia.
From Verif Require Import Text TextProofs Version ResolveSpec ResolveProofs Locked LockedSpec LockedProofs LockedUnlockProofs.
Import ListNotations.
Local Open Scope nat_scope.
Local Open Scope list_scope.

Lemma kind_same s t : kind s = kind t <-> same_kind s t.
Proof. destruct s, t; cbn; split; intros; try discriminate; tauto. Qed.

(** What the loop makes of one package of the new manifest. *)
Definition other_kind (old : list (text * package)) (q p : package) : Prop :=
  get (name q) old = Some p /\ ~ same_kind (from p) (from q).
Definition new_here (old : list (text * package)) (q : package) : Prop :=
  get (name q) old = None \/ exists p, other_kind old q p.

Lemma compare_spec new : forall old c, NoDup (map name new) ->
  (forall n p, In (n, p) old -> name p = n) -> is_map old ->
  let r := compare old new c in
  (forall n v, In (n, v) (added r) <-> In (n, v) (added c) \/ exists q, In q new /\ name q = n /\ at_version q = v /\ new_here old q)
  /\ (forall n v w, In (n, v, w) (changed r) <-> In (n, v, w) (changed c) \/ exists p q, In q new /\ get n old = Some p
        /\ name q = n /\ same_kind (from p) (from q) /\ at_version p = v /\ at_version q = w /\ v <> w)
  /\ (forall n x y, In (n, x, y) (changed_git r) <-> In (n, x, y) (changed_git c) \/ exists p q a b s t, In q new /\ get n old = Some p
        /\ name q = n /\ at_version p = at_version q /\ from p = GitSource a x s /\ from q = GitSource b y t /\ (x <> y \/ s <> t))
  /\ (forall n, In n (removed r) <-> In n (removed c) \/ (exists q p, In q new /\ other_kind old q p /\ name p = n)
        \/ In n (map fst old) /\ ~ In n (map name new)).
Proof.
  induction new as [|q new IH]; intros old c ND NM M; cbn [compare].
  - cbn. repeat split.
    + intros I. now left.
    + intros [I|(? & [] & _)]; auto.
    + intros I. now left.
    + intros [I|(? & ? & [] & _)]; auto.
    + intros I. now left.
    + intros [I|(? & ? & ? & ? & ? & ? & [] & _)]; auto.
    + rewrite in_app_iff. tauto.
    + rewrite in_app_iff. intros [I|[(? & ? & [] & _)|I]]; tauto.
  - cbn in ND. inversion ND as [|? ? Nq ND']; subst.
    set (rest := remove (name q) old).
    assert (G : forall q', In q' new -> get (name q') rest = get (name q') old).
    { intros q' I. unfold rest. rewrite get_remove. destruct (text_eqb (name q) (name q')) eqn:E; auto.
      apply text_eqb_eq in E. destruct Nq. rewrite E. now apply in_map. }
    assert (G' : forall n q', In q' new -> name q' = n -> get n rest = get n old) by (intros ? ? ? <-; auto).
    assert (NM' : forall n p, In (n, p) rest -> name p = n).
    { intros n p I. apply in_remove in I as [I _]. auto. }
    assert (M' : is_map rest) by now apply remove_map.
    assert (NH : forall q', In q' new -> (new_here rest q' <-> new_here old q')).
    { intros q' I. unfold new_here, other_kind. now rewrite (G q' I). }
    assert (Rm : forall n, In n (map fst rest) /\ ~ In n (map name new) <-> In n (map fst old) /\ ~ In n (map name (q :: new))).
    { intros n. unfold rest. rewrite in_remove_key. cbn. intuition. }
    (* all that follows, from what is added for [q] *)
    assert (Step : forall c' (A : text -> version -> Prop) (C : text -> version -> version -> Prop)
        (D : text -> text -> text -> Prop) (R : text -> Prop),
      (forall n v, In (n, v) (added c') <-> In (n, v) (added c) \/ A n v) ->
      (forall n v w, In (n, v, w) (changed c') <-> In (n, v, w) (changed c) \/ C n v w) ->
      (forall n x y, In (n, x, y) (changed_git c') <-> In (n, x, y) (changed_git c) \/ D n x y) ->
      (forall n, In n (removed c') <-> In n (removed c) \/ R n) ->
      (forall n v, A n v <-> name q = n /\ at_version q = v /\ new_here old q) ->
      (forall n v w, C n v w <-> exists p, get n old = Some p /\ name q = n /\ same_kind (from p) (from q)
         /\ at_version p = v /\ at_version q = w /\ v <> w) ->
      (forall n x y, D n x y <-> exists p a b s t, get n old = Some p /\ name q = n /\ at_version p = at_version q
         /\ from p = GitSource a x s /\ from q = GitSource b y t /\ (x <> y \/ s <> t)) ->
      (forall n, R n <-> exists p, other_kind old q p /\ name p = n) ->
      let r := compare rest new c' in
      (forall n v, In (n, v) (added r) <-> In (n, v) (added c) \/ exists q', In q' (q :: new) /\ name q' = n /\ at_version q' = v /\ new_here old q')
      /\ (forall n v w, In (n, v, w) (changed r) <-> In (n, v, w) (changed c) \/ exists p q', In q' (q :: new) /\ get n old = Some p
            /\ name q' = n /\ same_kind (from p) (from q') /\ at_version p = v /\ at_version q' = w /\ v <> w)
      /\ (forall n x y, In (n, x, y) (changed_git r) <-> In (n, x, y) (changed_git c) \/ exists p q' a b s t, In q' (q :: new) /\ get n old = Some p
            /\ name q' = n /\ at_version p = at_version q' /\ from p = GitSource a x s /\ from q' = GitSource b y t /\ (x <> y \/ s <> t))
      /\ (forall n, In n (removed r) <-> In n (removed c) \/ (exists q' p, In q' (q :: new) /\ other_kind old q' p /\ name p = n)
            \/ In n (map fst old) /\ ~ In n (map name (q :: new)))).
    { intros c' A C D R HA HC HD HR EA EC ED ER. destruct (IH rest c' ND' NM' M') as (I1 & I2 & I3 & I4).
      split; [|split; [|split]].
      - intros n v. rewrite I1, HA, EA. split.
        + intros [[I|(E & F & N)]|(q' & I & E & F & N)]; auto; right.
          * exists q. split; [now left|auto].
          * exists q'. split; [now right|]. split; auto. split; auto. now apply NH.
        + intros [I|(q' & [<-|I] & E & F & N)]; auto. right. exists q'. split; auto. split; auto. split; auto. now apply NH.
      - intros n v w. rewrite I2, HC, EC. split.
        + intros [[I|(p & H)]|(p & q' & I & E & N & H)]; auto; right.
          * exists p, q. split; [now left|auto].
          * exists p, q'. split; [now right|]. rewrite <- (G' n q' I N). auto.
        + intros [I|(p & q' & [<-|I] & E & N & H)]; auto.
          * left. right. exists p. auto.
          * right. exists p, q'. split; auto. rewrite (G' n q' I N). auto.
      - intros n x y. rewrite I3, HD, ED. split.
        + intros [[I|(p & a & b & s & t & H)]|(p & q' & a & b & s & t & I & E & N & H)]; auto; right.
          * exists p, q, a, b, s, t. split; [now left|auto].
          * exists p, q', a, b, s, t. split; [now right|]. rewrite <- (G' n q' I N). auto.
        + intros [I|(p & q' & a & b & s & t & [<-|I] & E & N & H)]; auto.
          * left. right. exists p, a, b, s, t. auto.
          * right. exists p, q', a, b, s, t. split; auto. rewrite (G' n q' I N). auto.
      - intros n. rewrite I4, HR, ER. rewrite Rm. split.
        + intros [[I|(p & O & E)]|[(q' & p & I & [O1 O2] & E)|I]]; auto; right.
          * left. exists q, p. split; [now left|auto].
          * left. exists q', p. split; [now right|]. split; auto. split; auto. now rewrite <- (G q' I).
        + intros [I|[(q' & p & [<-|I] & [O1 O2] & E)|I]]; auto.
          * left. right. exists p. split; auto. now split.
          * right. left. exists q', p. split; auto. split; auto. split; auto. now rewrite (G q' I). }
    unfold new_here, other_kind in Step.
    destruct (get (name q) old) as [p|] eqn:E.
    + assert (Np : name p = name q) by (apply get_in in E; eauto).
      destruct (kind (from q) =? kind (from p))%N eqn:K; cbn [negb].
      * apply N.eqb_eq in K. assert (SK : same_kind (from p) (from q)) by now apply kind_same.
        destruct (version_eqb (at_version p) (at_version q)) eqn:V.
        -- apply version_eqb_eq in V.
           assert (No : forall c', c' = c -> ~ (exists a b x y s t, from p = GitSource a x s /\ from q = GitSource b y t /\ (x <> y \/ s <> t)) ->
              let r := compare rest new c' in _) by (intros c' -> H; apply (Step c (fun _ _ => False) (fun _ _ _ => False) (fun _ _ _ => False) (fun _ => False)); try tauto;
                [ intros; split; [tauto|]; intros (_ & _ & [X|(p' & [= <-] & X)]); [discriminate|tauto]
                | intros; split; [tauto|]; intros (p' & X & <- & _ & <- & <- & Y); rewrite E in X; injection X as <-; tauto
                | intros; split; [tauto|]; intros (p' & a & b & s & t & X & <- & _ & X1 & X2 & X3); rewrite E in X; injection X as <-; apply H; eauto 12
                | intros; split; [tauto|]; intros (p' & ([= <-] & X) & _); tauto ]).
           destruct (from p) as [|pa px ps|] eqn:Fp, (from q) as [|qa qx qs|] eqn:Fq; try discriminate K; try destruct SK;
             try (apply No; auto; intros (? & ? & ? & ? & ? & ? & ? & ? & ?); discriminate).
           destruct (negb (text_eqb px qx) || negb (path_eqb ps qs)) eqn:T.
           ++ assert (T' : px <> qx \/ ps <> qs).
              { apply orb_true_iff in T as [T|T]; apply negb_true_iff in T; [left; now apply text_eqb_neq|right].
                intros ->. now rewrite (proj2 (path_eqb_eq qs qs) eq_refl) in T. }
              apply (Step _ (fun _ _ => False) (fun _ _ _ => False) (fun n x y => (name q, px, qx) = (n, x, y)) (fun _ => False));
                cbn [added changed changed_git removed]; try tauto.
              ** intros. rewrite in_app_iff. cbn. tauto.
              ** intros; split; [tauto|]. intros (_ & _ & [X|(p' & [= <-] & X)]); [discriminate|]. rewrite Fp in X. now destruct X.
              ** intros; split; [tauto|]. intros (p' & X & <- & _ & <- & <- & Y). rewrite E in X. injection X as <-. congruence.
              ** intros n x y. split.
                 --- intros [= <- <- <-]. exists p, pa, qa, ps, qs. auto 10.
                 --- intros (p' & a & b & s & t & X & <- & _ & X1 & X2 & X3). rewrite E in X. injection X as <-. congruence.
              ** intros; split; [tauto|]. intros (p' & ([= <-] & X) & _). rewrite Fp in X. now destruct X.
           ++ apply No; auto. apply orb_false_iff in T as [T1 T2]. apply negb_false_iff in T1, T2.
              apply text_eqb_eq in T1. apply path_eqb_eq in T2. subst.
              intros (a & b & x & y & s & t & [= <- <- <-] & [= <- <- <-] & [X|X]); now apply X.
        -- assert (V' : at_version p <> at_version q) by (intros X; apply version_eqb_eq in X; congruence).
           apply (Step _ (fun _ _ => False) (fun n v w => (name q, at_version p, at_version q) = (n, v, w)) (fun _ _ _ => False) (fun _ => False));
             cbn [added changed changed_git removed]; try tauto.
           ++ intros. rewrite in_app_iff. cbn. tauto.
           ++ intros; split; [tauto|]. intros (_ & _ & [X|(p' & [= <-] & X)]); [discriminate|tauto].
           ++ intros n v w. split.
              ** intros [= <- <- <-]. exists p. auto 10.
              ** intros (p' & X & <- & _ & <- & <- & _). rewrite E in X. now injection X as <-.
           ++ intros; split; [tauto|]. intros (p' & a & b & s & t & X & <- & X1 & _). rewrite E in X. injection X as <-. tauto.
           ++ intros; split; [tauto|]. intros (p' & ([= <-] & X) & _). tauto.
      * apply N.eqb_neq in K. assert (SK : ~ same_kind (from p) (from q)).
        { intros X. apply kind_same in X. now apply K. }
        apply (Step _ (fun n v => (name q, at_version q) = (n, v)) (fun _ _ _ => False) (fun _ _ _ => False) (fun n => name p = n));
          cbn [added changed changed_git removed]; try tauto.
        -- intros. rewrite in_app_iff. cbn. tauto.
        -- intros. rewrite in_app_iff. cbn. tauto.
        -- intros n v. split; [intros [= <- <-]; eauto 10|]. intros (<- & <- & _). auto.
        -- intros; split; [tauto|]. intros (p' & X & <- & Y & _). rewrite E in X. injection X as <-. tauto.
        -- intros; split; [tauto|]. intros (p' & a & b & s & t & X & <- & _ & X1 & X2 & _). rewrite E in X. injection X as <-.
           rewrite X1, X2 in SK. now apply SK.
        -- intros n. split; [eauto|]. intros (p' & ([= <-] & X) & Y). auto.
    + apply (Step _ (fun n v => (name q, at_version q) = (n, v)) (fun _ _ _ => False) (fun _ _ _ => False) (fun _ => False));
        cbn [added changed changed_git removed]; try tauto.
      * intros. rewrite in_app_iff. cbn. tauto.
      * intros n v. split; [intros [= <- <-]; eauto 10|]. intros (<- & <- & _). auto.
      * intros; split; [tauto|]. intros (p' & X & <- & _). congruence.
      * intros; split; [tauto|]. intros (p' & a & b & s & t & X & <- & _). congruence.
      * intros; split; [tauto|]. intros (p' & (X & _) & _). discriminate.
Qed.

Lemma between_spec old new : NoDup (map name (packages old)) -> NoDup (map name (packages new)) ->
  let c := between_manifests old new in
  (forall n v, In (n, v) (added c) <-> is_added old new n v)
  /\ (forall n v w, In (n, v, w) (changed c) <-> is_changed old new n v w)
  /\ (forall n x y, In (n, x, y) (changed_git c) <-> is_moved old new n x y)
  /\ (forall n, In n (removed c) <-> is_removed old new n).
Proof.
  intros N1 N2. unfold between_manifests. set (o := collect (map (fun p => (name p, p)) (packages old))).
  assert (G : forall n p, get n o = Some p <-> In p (packages old) /\ name p = n).
  { intros n p. unfold o. rewrite (get_listed (fun p => p)). split.
    - intros (q & Li & E & <-). split; auto. now apply listed_in.
    - intros [I E]. exists p. split; auto. now apply in_listed. }
  assert (M : is_map o) by apply collect_map.
  assert (NM : forall n p, In (n, p) o -> name p = n).
  { intros n p I. apply (get_iff _ _ _ M), G in I. tauto. }
  destruct (compare_spec (packages new) o (Changes [] [] [] []) N2 NM M) as (A & B & C & D).
  assert (U : forall p p', In p (packages old) -> In p' (packages old) -> name p = name p' -> p = p').
  { intros p p' I J E. apply (listed_unique old); auto; now apply in_listed. }
  assert (U' : forall p p', In p (packages new) -> In p' (packages new) -> name p = name p' -> p = p').
  { intros p p' I J E. apply (listed_unique new); auto; now apply in_listed. }
  split; [|split; [|split]].
  - intros n v. rewrite A. cbn. split.
    + intros [[]|(q & I & E & F & H)]. exists q. split; auto. split; auto. split; auto.
      intros p (P1 & P2 & P3 & P4). destruct H as [H|(p' & H1 & H2)].
      * assert (get (name q) o = Some p) by now apply G. congruence.
      * apply G in H1 as [H1 H3]. assert (p' = p) as -> by (apply U; congruence). tauto.
    + intros (q & I & E & F & H). right. exists q. split; auto. split; auto. split; auto.
      destruct (get (name q) o) as [p|] eqn:X; [right|now left]. exists p. split; auto.
      intros S. apply G in X as [X1 X2]. apply (H p). split; auto.
  - intros n v w. rewrite B. cbn. split.
    + intros [[]|(p & q & I & X & E & S & F)]. apply G in X as [X1 X2]. exists p, q. split; [split; [|split; [|split]]; auto; congruence|tauto].
    + intros (p & q & (P1 & P2 & P3 & P4) & E & F). right. exists p, q. split; auto. split; [apply G; split; congruence|tauto].
  - intros n x y. rewrite C. cbn. split.
    + intros [[]|(p & q & a & b & s & t & I & X & E & V & F1 & F2 & F3)]. apply G in X as [X1 X2].
      exists p, q, a, b, s, t. split; [|auto 10]. split; [|split; [|split]]; auto; [congruence|]. now rewrite F1, F2.
    + intros (p & q & a & b & s & t & (P1 & P2 & P3 & P4) & E & V & F). right. exists p, q, a, b, s, t.
      split; auto. split; [apply G; split; congruence|tauto].
  - intros n. rewrite D. cbn. split.
    + intros [[]|[(q & p & I & (X & K) & E)|[I J]]].
      * apply G in X as [X1 X2]. exists p. split; auto. split; auto. intros q' (P1 & P2 & P3 & P4).
        assert (q' = q) as -> by (apply U'; congruence). tauto.
      * apply key_in in I as (p & I). apply NM in I as E. apply (get_iff _ _ _ M), G in I as [I _].
        exists p. split; auto. split; auto. intros q (P1 & P2 & P3 & P4). apply J. rewrite <- E, P3. now apply in_map.
    + intros (p & I & <- & H). right. destruct (in_dec text_dec (name p) (map name (packages new))) as [J|J].
      * left. apply in_map_iff in J as (q & E & J). exists q, p. split; auto. split; auto.
        split; [now apply G|]. intros S. apply (H q). split; auto.
      * right. split; auto. apply in_key with p. apply (get_iff _ _ _ M), G. auto.
Qed.

Lemma any_package_changes_false c : any_package_changes c = false
  <-> added c = [] /\ changed c = [] /\ changed_git c = [] /\ removed c = [].
Proof.
  unfold any_package_changes. destruct (added c), (changed c), (changed_git c), (removed c); cbn;
    intuition discriminate.
Qed.

Lemma empty_iff {A} (l : list A) : l = [] <-> forall x, ~ In x l.
Proof.
  split; [intros -> x []|]. destruct l as [|x l]; auto. intros H. destruct (H x). now left.
Qed.

Lemma any_changes_spec old new : NoDup (map name (packages old)) -> NoDup (map name (packages new)) ->
  (any_package_changes (between_manifests old new) = false <-> same_packages old new).
Proof.
  intros N1 N2. destruct (between_spec old new N1 N2) as (A & B & C & D).
  rewrite any_package_changes_false. unfold same_packages.
  assert (KD : forall p q, In p (packages old) -> In q (packages new) -> name p = name q ->
    kept old new p q \/ ~ same_kind (from p) (from q)).
  { intros p q I J E. assert (same_kind (from p) (from q) \/ ~ same_kind (from p) (from q)) as [|] by (destruct (from p), (from q); cbn; tauto); auto.
    left. split; auto. }
  assert (U : forall p p', In p (packages old) -> In p' (packages old) -> name p = name p' -> p = p').
  { intros p p' I J E. apply (listed_unique old); auto; now apply in_listed. }
  assert (U' : forall p p', In p (packages new) -> In p' (packages new) -> name p = name p' -> p = p').
  { intros p p' I J E. apply (listed_unique new); auto; now apply in_listed. }
  split.
  - intros (EA & EB & EC & ED). split; [|split].
    + intros p I. destruct (in_dec text_dec (name p) (map name (packages new))) as [J|J].
      * apply in_map_iff in J as (q & E & J). destruct (KD p q) as [K|K]; eauto.
        exfalso. assert (In (name p) (removed (between_manifests old new))) as X.
        { apply D. exists p. split; auto. split; auto. intros q' (P1 & P2 & P3 & P4).
          assert (q' = q) as -> by (apply U'; congruence). tauto. }
        rewrite ED in X. destruct X.
      * exfalso. assert (In (name p) (removed (between_manifests old new))) as X.
        { apply D. exists p. split; auto. split; auto. intros q (P1 & P2 & P3 & P4). apply J. rewrite P3. now apply in_map. }
        rewrite ED in X. destruct X.
    + intros q I. destruct (in_dec text_dec (name q) (map name (packages old))) as [J|J].
      * apply in_map_iff in J as (p & E & J). destruct (KD p q) as [K|K]; eauto.
        exfalso. assert (In (name q, at_version q) (added (between_manifests old new))) as X.
        { apply A. exists q. split; auto. split; auto. split; auto. intros p' (P1 & P2 & P3 & P4).
          assert (p' = p) as -> by (apply U; congruence). tauto. }
        rewrite EA in X. destruct X.
      * exfalso. assert (In (name q, at_version q) (added (between_manifests old new))) as X.
        { apply A. exists q. split; auto. split; auto. split; auto. intros p (P1 & P2 & P3 & P4). apply J. rewrite <- P3. now apply in_map. }
        rewrite EA in X. destruct X.
    + intros p q K. assert (V : at_version p = at_version q).
      { destruct (version_eqb (at_version p) (at_version q)) eqn:V; [now apply version_eqb_eq|].
        exfalso. assert (In (name q, at_version p, at_version q) (changed (between_manifests old new))) as X.
        { apply B. exists p, q. split; auto. split; auto. split; auto. split; auto. intros E. apply version_eqb_eq in E. congruence. }
        rewrite EB in X. destruct X. }
      split; auto. destruct K as (P1 & P2 & P3 & P4). destruct (from p) as [|a x s|] eqn:Fp, (from q) as [|b y t|] eqn:Fq; cbn in *; try tauto.
      destruct (text_dec x y) as [->|Nx].
      * destruct (path_eqb s t) eqn:T; [apply path_eqb_eq in T; now subst|].
        exfalso. assert (In (name q, y, y) (changed_git (between_manifests old new))) as X.
        { apply C. exists p, q, a, b, s, t. split; [split; [|split; [|split]]; auto; now rewrite Fp, Fq|]. repeat (split; auto).
          right. intros ->. now rewrite (proj2 (path_eqb_eq t t) eq_refl) in T. }
        rewrite EC in X. destruct X.
      * exfalso. assert (In (name q, x, y) (changed_git (between_manifests old new))) as X.
        { apply C. exists p, q, a, b, s, t. split; [split; [|split; [|split]]; auto; now rewrite Fp, Fq|]. repeat (split; auto). }
        rewrite EC in X. destruct X.
  - intros (S1 & S2 & S3). rewrite !empty_iff. split; [|split; [|split]].
    + intros [n v] I. apply A in I as (q & J & _ & _ & H). destruct (S2 q J) as (p & K). now apply (H p).
    + intros [[n v] w] I. apply B in I as (p & q & K & _ & <- & <- & H). now apply H, S3.
    + intros [[n x] y] I. apply C in I as (p & q & a & b & s & t & K & _ & _ & F1 & F2 & H).
      destruct (S3 _ _ K) as [_ W]. rewrite F1, F2 in W. cbn in W. injection W as -> ->. tauto.
    + intros n I. apply D in I as (p & J & _ & H). destruct (S1 p J) as (q & K). now apply (H q).
Qed.

(** ** Comparing requirements *)
Lemma same_requirements_spec canonical r r' : (forall p, canonical p <> None) ->
  (same_requirements canonical r (Some r') = Some true <-> same_place canonical r r')
  /\ same_requirements canonical r (Some r') <> None.
Proof.
  intros T. destruct r as [s a|p|g f p]; cbn.
  - rewrite <- requirement_eqb_same. split; [|easy]. split; [now intros [= X]|intros X; now f_equal].
  - destruct r' as [s' a'|p'|g' f' p']; cbn.
    + split; [|easy]. rewrite <- requirement_eqb_same. cbn. easy.
    + destruct (canonical p) eqn:E; [|now destruct (T p)]. destruct (canonical p') eqn:E'; [|now destruct (T p')].
      split; [|easy]. split.
      * intros [= X]. apply text_eqb_eq in X. now subst.
      * intros [= ->]. now rewrite text_eqb_refl.
    + split; [|easy]. rewrite <- requirement_eqb_same. cbn. easy.
  - rewrite <- requirement_eqb_same. split; [|easy]. split; [now intros [= X]|intros X; now f_equal].
Qed.

Lemma all_same_spec canonical a b : (forall p, canonical p <> None) -> is_map b ->
  all_same canonical a b <> None
  /\ (all_same canonical a b = Some true <-> forall n r, In (n, r) a -> exists r', In (n, r') b /\ same_place canonical r r').
Proof.
  intros T M. induction a as [|[n r] a [IH1 IH2]]; cbn [all_same].
  - split; [easy|]. split; auto. intros _ n r [].
  - destruct (get n b) as [r'|] eqn:G.
    + destruct (same_requirements_spec canonical r r' T) as [S1 S2].
      destruct (same_requirements canonical r (Some r')) as [[|]|]; [| |easy].
      * split; auto. rewrite IH2. split.
        -- intros H j s [[= <- <-]|I]; auto. exists r'. split; [now apply get_iff|]. now apply S1.
        -- intros H j s I. apply H. now right.
      * split; [easy|]. split; [easy|]. intros H. exfalso. destruct (H n r) as (r'' & I & S); [now left|].
        apply (get_iff _ _ _ M) in I. assert (r'' = r') as -> by congruence. apply S1 in S. discriminate.
    + assert (same_requirements canonical r None = Some false) as -> by now destruct r.
      split; [easy|]. split; [easy|]. intros H. exfalso. destruct (H n r) as (r'' & I & _); [now left|].
      apply get_none in G. apply G. eapply in_key; eauto.
Qed.

Lemma is_same_requirements_spec canonical a b : (forall p, canonical p <> None) -> is_map a -> is_map b ->
  is_same_requirements canonical a b <> None
  /\ (is_same_requirements canonical a b = Some true <->
      (forall n r, In (n, r) a -> exists r', In (n, r') b /\ same_place canonical r r')
      /\ (forall n r', In (n, r') b -> exists r, In (n, r) a /\ same_place canonical r r')).
Proof.
  intros T Ma Mb. unfold is_same_requirements. destruct (all_same_spec canonical a b T Mb) as [S1 S2].
  destruct (length a =? length b) eqn:E; cbn [negb].
  - apply Nat.eqb_eq in E. split; auto. rewrite S2. split; [|tauto]. intros H. split; auto.
    intros n r' I. assert (Inc : incl (map fst a) (map fst b)).
    { intros j J. apply key_in in J as (r & J). destruct (H _ _ J) as (r1 & J' & _). eapply in_key; eauto. }
    apply NoDup_length_incl in Inc; auto; [|rewrite !map_length; lia].
    specialize (Inc n (in_key _ _ _ I)). apply key_in in Inc as (r & J). exists r. split; auto.
    destruct (H _ _ J) as (r1 & J' & S). assert (r1 = r') as ->; auto.
    apply (get_iff _ _ _ Mb) in J', I. congruence.
  - apply Nat.eqb_neq in E. split; [easy|]. split; [easy|]. intros [H1 H2]. exfalso. apply E.
    assert (incl (map fst a) (map fst b)) as I1.
    { intros j J. apply key_in in J as (r & J). destruct (H1 _ _ J) as (r1 & J' & _). eapply in_key; eauto. }
    assert (incl (map fst b) (map fst a)) as I2.
    { intros j J. apply key_in in J as (r & J). destruct (H2 _ _ J) as (r1 & J' & _). eapply in_key; eauto. }
    apply NoDup_incl_length in I1; auto. apply NoDup_incl_length in I2; auto. rewrite !map_length in *. lia.
Qed.
