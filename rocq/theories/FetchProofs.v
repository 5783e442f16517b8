(** Proofs about getting packages. *)
From Coq Require Import NArith Arith Bool List Lia.
From Verif Require Import Text TextProofs Version ResolveSpec ResolveProofs Locked LockedSpec LockedProofs LockedUnlockProofs
  LockedChangesProofs Fetch FetchSpec.
Import ListNotations.
Local Open Scope nat_scope.
Local Open Scope list_scope.

Notation is_map := ResolveSpec.is_map.

Lemma unique_eq m p q : unique m -> In p (packages m) -> In q (packages m) -> name p = name q -> p = q.
Proof. intros U I J E. apply (listed_unique m); auto; now apply in_listed. Qed.

(** ** The directory *)
Lemma get_not_key {A} n (d : list (text * A)) : ~ In n (map fst d) -> get n d = None.
Proof. apply get_none. Qed.
Lemma get_key {A} n (d : list (text * A)) x : get n d = Some x -> In n (map fst d).
Proof. intros G. apply get_in in G. eapply in_key; eauto. Qed.

Lemma checked_out_map out : forall d, is_map d -> is_map (checked_out out d).
Proof.
  unfold checked_out. induction out as [|[n x] out IH]; intros d M; cbn; auto. apply IH. now apply insert_map.
Qed.
Lemma get_checked_out out : forall d n,
  (exists x, In (n, x) out /\ get n (checked_out out d) = Some x)
  \/ ~ In n (map fst out) /\ get n (checked_out out d) = get n d.
Proof.
  unfold checked_out. induction out as [|[k x] out IH]; intros d n; cbn; auto.
  destruct (IH (insert k x d) n) as [(y & I & G)|[N G]]; [left; eauto|].
  rewrite G, get_insert. destruct (text_eqb k n) eqn:E.
  - apply text_eqb_eq in E. subst. left. eauto.
  - apply text_eqb_neq in E. right. split; auto. intros [F|F]; auto.
Qed.

Lemma removes_map {A} (l : list (text * version)) : forall d : list (text * A), is_map d ->
  is_map (fold_left (fun d '(n, _) => remove n d) l d).
Proof. induction l as [|[n v] l IH]; intros d M; cbn; auto. apply IH. now apply remove_map. Qed.
Lemma get_removes {A} (l : list (text * version)) : forall (d : list (text * A)) n,
  (In n (map fst l) -> get n (fold_left (fun d '(n, _) => remove n d) l d) = None)
  /\ (~ In n (map fst l) -> get n (fold_left (fun d '(n, _) => remove n d) l d) = get n d).
Proof.
  induction l as [|[k v] l IH]; intros d n; cbn; [tauto|]. destruct (IH (remove k d) n) as [A1 A2].
  destruct (in_dec text_dec n (map fst l)) as [I|N].
  - split; [auto|tauto].
  - rewrite (A2 N), get_remove. destruct (text_eqb k n) eqn:E.
    + apply text_eqb_eq in E. tauto.
    + apply text_eqb_neq in E. tauto.
Qed.

(** ** Local packages *)
Lemma versions_of m n v : unique m ->
  (get n (local_versions (from_manifest m)) = Some v <-> exists p, In p (packages m) /\ name p = n /\ at_version p = v).
Proof.
  intros U. cbn. rewrite get_listed. split; intros (p & A & B); exists p; split; auto; [now apply listed_in|now apply in_listed].
Qed.

Lemma git_of m n c s : unique m ->
  (get n (local_git (from_manifest m)) = Some (c, s) <-> exists p repo, In p (packages m) /\ name p = n /\ from p = GitSource repo c s).
Proof.
  intros U. cbn [from_manifest local_git]. rewrite (get_iff _ _ _ (collect_map _)), in_collect. split.
  - intros (b & a & E & _).
    assert (I : In (n, (c, s)) (flat_map (fun p => match from p with GitSource _ commit path => [(name p, (commit, path))] | _ => [] end) (packages m)))
      by (rewrite E; apply in_app_iff; right; now left).
    apply in_flat_map in I as (p & I & J). destruct (from p) as [|repo c' s'|] eqn:F; try contradiction.
    destruct J as [J|[]]. injection J as <- <- <-. exists p, repo. auto.
  - intros (p & repo & I & E & F). unfold unique in U. apply in_split in I as (x & y & I). rewrite I in U |- *.
    rewrite flat_map_app. cbn [flat_map]. rewrite F, E. cbn [app].
    eexists _, _. split; [reflexivity|]. rewrite map_app in U. cbn in U. apply NoDup_remove_2 in U. rewrite E in U.
    intros J. apply U, in_app_iff. right. apply key_in in J as ([c' s'] & J). apply in_flat_map in J as (q & Q & J).
    destruct (from q); try contradiction. destruct J as [J|[]]. injection J as J _ _. rewrite <- J. now apply in_map.
Qed.

Lemma extra_of m0 m n : unique m0 ->
  (In n (map fst (extra_local_packages (from_manifest m0) m))
   <-> exists p, In p (packages m0) /\ name p = n /\ ~ exists q, In q (packages m) /\ name q = n /\ at_version q = at_version p).
Proof.
  intros U. unfold extra_local_packages.
  assert (V : forall n v, In (n, v) (local_versions (from_manifest m0)) <-> exists p, In p (packages m0) /\ name p = n /\ at_version p = v).
  { intros k v. rewrite <- (versions_of m0 k v U). symmetry. apply get_iff, collect_map. }
  assert (T : forall n v, existsb (fun p => text_eqb (name p) n && version_eqb (at_version p) v) (packages m) = true
    <-> exists q, In q (packages m) /\ name q = n /\ at_version q = v).
  { intros k v. rewrite existsb_exists. split; intros (q & I & H); exists q; split; auto.
    - apply andb_true_iff in H as [H1 H2]. apply text_eqb_eq in H1. apply version_eqb_eq in H2. auto.
    - destruct H as [-> ->]. rewrite text_eqb_refl. now apply version_eqb_eq. }
  split.
  - intros I. apply key_in in I as (v & I). apply filter_In in I as [I H]. apply V in I as (p & I & E & F).
    exists p. split; auto. split; auto. intros Q. rewrite F in Q. apply T in Q. rewrite Q in H. discriminate.
  - intros (p & I & E & H). apply in_key with (at_version p). apply filter_In. split; [apply V; eauto|].
    apply negb_true_iff. destruct (existsb _ _) eqn:X; auto. apply T in X. tauto.
Qed.

Lemma fresh_hex m0 p : unique m0 -> from p = HexSource ->
  (has_fresh (from_manifest m0) p = true <-> exists q, In q (packages m0) /\ name q = name p /\ at_version q = at_version p).
Proof.
  intros U F. unfold has_fresh. rewrite F. rewrite <- (versions_of m0 (name p) (at_version p) U).
  destruct (get (name p) (local_versions (from_manifest m0))) as [v|]; [|easy].
  rewrite version_eqb_eq. split; [now intros ->|now intros [= ->]].
Qed.
Lemma fresh_git m0 p a c s : unique m0 -> from p = GitSource a c s ->
  (has_fresh (from_manifest m0) p = true <-> exists q b, In q (packages m0) /\ name q = name p /\ from q = GitSource b c s).
Proof.
  intros U F. unfold has_fresh. rewrite F. rewrite <- (git_of m0 (name p) c s U).
  destruct (get (name p) (local_git (from_manifest m0))) as [[c' s']|]; [|easy].
  rewrite andb_true_iff, text_eqb_eq, path_eqb_eq. split; [now intros [-> ->]|now intros [= -> ->]].
Qed.

Lemma in_missing l m root p : In p (missing_local_packages l m root) <->
  In p (packages m) /\ name p <> root /\ is_local p = false /\ has_fresh l p = false.
Proof.
  unfold missing_local_packages. rewrite !filter_In, !negb_true_iff, text_eqb_neq. tauto.
Qed.

(** ** Downloading *)
Lemma get_hex e ps : forall d n, (forall p, In p ps -> fails e (name p) = false) ->
  let d' := fold_left (ensure_package_in_build_directory e) ps d in
  (is_map d -> is_map d')
  /\ (forall x, get n d = Some x -> get n d' = Some x)
  /\ (~ In n (map name ps) -> get n d' = get n d)
  /\ (forall p, NoDup (map name ps) -> In p ps -> name p = n -> get n d = None -> get n d' = Some (OfHex (at_version p))).
Proof.
  induction ps as [|q ps IH]; intros d n F; cbn.
  - repeat split; auto. intros p _ [].
  - destruct (IH (ensure_package_in_build_directory e d q) n) as (A & B & C & D); [intros; apply F; now right|].
    set (d' := fold_left _ _ _) in *.
    assert (Fq : fails e (name q) = false) by (apply F; now left).
    assert (E1 : forall x, get n d = Some x -> get n (ensure_package_in_build_directory e d q) = Some x).
    { intros x G. unfold ensure_package_in_build_directory. rewrite Fq. destruct (contains_key (name q) d) eqn:K; auto.
      rewrite get_insert. destruct (text_eqb (name q) n) eqn:T; auto. apply text_eqb_eq in T. subst.
      apply get_key, contains_key_spec in G. unfold contains_key in *. congruence. }
    assert (E2 : name q <> n -> get n (ensure_package_in_build_directory e d q) = get n d).
    { intros N. unfold ensure_package_in_build_directory. rewrite Fq. destruct (contains_key (name q) d); auto.
      rewrite get_insert. apply text_eqb_neq in N. now rewrite N. }
    split; [|split; [|split]].
    + intros M. apply A. unfold ensure_package_in_build_directory. rewrite Fq. destruct (contains_key _ _); auto. now apply insert_map.
    + auto.
    + intros N. rewrite C by tauto. apply E2. tauto.
    + intros p ND [->|I] E G.
      * apply B. unfold ensure_package_in_build_directory. rewrite Fq. unfold Resolve.contains_key. rewrite E, G, get_insert, text_eqb_refl. auto.
      * inversion ND as [|? ? N ND']; subst. apply D; auto. rewrite E2; auto. intros T. apply N. rewrite T. now apply in_map.
Qed.

Lemma get_git e ps : forall d n d', download_git_packages e ps d = (d', true) ->
  (is_map d -> is_map d')
  /\ (~ In n (map name ps) -> get n d' = get n d)
  /\ (forall p a c s, NoDup (map name ps) -> In p ps -> name p = n -> from p = GitSource a c s -> get n d' = Some (OfGit c s)).
Proof.
  induction ps as [|q ps IH]; intros d n d'; cbn.
  - intros [= <-]. repeat split; auto. intros p a c s _ [].
  - destruct (from q) as [|a c s|] eqn:F.
    + intros H. destruct (IH _ n _ H) as (A & B & C). split; auto. split; [tauto|].
      intros p a c s ND [->|I] E G; [congruence|]. inversion ND; subst. eauto.
    + destruct (fails e (name q)); [discriminate|]. intros H. destruct (IH _ n _ H) as (A & B & C). split; [|split].
      * intros M. apply A. now apply insert_map.
      * intros N. rewrite B by tauto. rewrite get_insert. destruct (text_eqb (name q) n) eqn:T; auto.
        apply text_eqb_eq in T. tauto.
      * intros p a' c' s' ND [->|I] E G; inversion ND as [|? ? N ND']; subst.
        -- rewrite B by auto. rewrite get_insert, text_eqb_refl. congruence.
        -- eauto.
    + intros H. destruct (IH _ n _ H) as (A & B & C). split; auto. split; [tauto|].
      intros p a c s ND [->|I] E G; [congruence|]. inversion ND; subst. eauto.
Qed.

Lemma NoDup_filter_names (g : package -> bool) l : NoDup (map name l) -> NoDup (map name (filter g l)).
Proof.
  induction l as [|p l IH]; cbn; auto. intros ND. inversion ND as [|? ? N ND']; subst. destruct (g p); cbn; auto.
  constructor; auto. intros I. apply N. apply in_map_iff in I as (q & <- & I). apply filter_In in I as [I _]. now apply in_map.
Qed.

(** ** One command *)
Definition tidy (m : manifest) (d : list (text * content)) : Prop :=
  forall n, In n (map fst d) -> In n (map name (packages m)).
Record good (root : text) (w : world) (m : manifest) : Prop := {
  good_local : local w = from_manifest m;
  good_unique : unique m;
  good_map : is_map (directory w);
  good_place : in_place root m (directory w);
  good_tidy : tidy m (directory w) }.

Lemma place_get root m d : is_map d -> (in_place root m d <->
  forall p x, In p (packages m) -> name p <> root -> wanted p = Some x -> get (name p) d = Some x).
Proof.
  intros M. split; intros H p x I N W.
  - apply get_iff; auto. now apply (H p x).
  - specialize (H p x I N W). split; [now apply get_in|]. intros y J. apply (get_iff _ _ _ M) in J. congruence.
Qed.

Lemma extra_tidy m0 m n d : unique m0 -> tidy m0 d -> get n (remove_extra_packages (from_manifest m0) m d) <> None ->
  In n (map name (packages m)).
Proof.
  intros U T G. unfold remove_extra_packages in G.
  destruct (get_removes (extra_local_packages (from_manifest m0) m) d n) as [A B].
  destruct (in_dec text_dec n (map fst (extra_local_packages (from_manifest m0) m))) as [I|I]; [rewrite A in G; tauto|].
  rewrite (B I) in G. destruct (get n d) as [x|] eqn:X; [|tauto]. apply get_key, T in X.
  apply in_map_iff in X as (q & E & Q). destruct (in_dec text_dec n (map name (packages m))) as [J|J]; auto.
  exfalso. apply I, extra_of; auto. exists q. split; auto. split; auto. intros (p & P & F & _). apply J. rewrite <- F. now apply in_map.
Qed.

Lemma download_step root m0 m w e out d' : good root w m0 -> unique m -> steady m0 m ->
  (forall n x, In (n, x) out -> exists p repo commit path, In p (packages m) /\ name p = n
     /\ from p = GitSource repo commit path /\ x = OfGit commit path) ->
  add_missing_packages e m (local w) root (remove_extra_packages (local w) m (checked_out out (directory w))) = (d', true) ->
  is_map d' /\ in_place root m d' /\ tidy m d'.
Proof.
  intros [GL GU GM GP GT] U S O. rewrite GL. unfold add_missing_packages, download_hex_packages.
  set (l := from_manifest m0). set (missing := missing_local_packages l m root).
  set (d1 := checked_out out (directory w)). set (d2 := remove_extra_packages l m d1).
  set (hexes := filter (fun p => negb (text_eqb root (name p))) (filter is_hex missing)).
  destruct (forallb (fun p => negb (fails e (name p))) hexes) eqn:FA; [|discriminate].
  set (d3 := fold_left (ensure_package_in_build_directory e) hexes d2).
  set (gits := filter is_git missing). intros HG.
  assert (NDm : NoDup (map name missing)).
  { unfold missing, missing_local_packages. now repeat apply NoDup_filter_names. }
  assert (NDh : NoDup (map name hexes)) by (unfold hexes; now repeat apply NoDup_filter_names).
  assert (NDg : NoDup (map name gits)) by now apply NoDup_filter_names.
  assert (Hx : forall p, In p hexes <-> In p (packages m) /\ name p <> root /\ from p = HexSource /\ has_fresh l p = false).
  { intros p. unfold hexes, missing. rewrite !filter_In, in_missing, negb_true_iff, text_eqb_neq.
    unfold is_hex, is_local. destruct (from p); split; intuition; try discriminate. }
  assert (Gt : forall p, In p gits <-> In p (packages m) /\ name p <> root /\ (exists a c s, from p = GitSource a c s) /\ has_fresh l p = false).
  { intros p. unfold gits, missing. rewrite filter_In, in_missing.
    unfold is_git, is_local. destruct (from p) as [|a c s|]; split; intuition eauto; try discriminate;
      destruct H1 as (? & ? & ? & ?); discriminate. }
  assert (HF : forall p, In p hexes -> fails e (name p) = false).
  { rewrite forallb_forall in FA. intros p I. apply FA in I. now apply negb_true_iff in I. }
  assert (M1 : is_map d1) by now apply checked_out_map.
  assert (M2 : is_map d2) by now apply removes_map.
  assert (M3 : is_map d3) by (apply (get_hex e hexes d2 [] HF); auto).
  assert (M4 : is_map d') by (apply (get_git e gits d3 [] d' HG); auto).
  (* the entries of the first two steps *)
  assert (D2 : forall p, In p (packages m) -> (forall q, In q (packages m0) -> name q = name p -> at_version q = at_version p) ->
    get (name p) d2 = get (name p) d1).
  { intros p I H. apply get_removes. intros X. apply extra_of in X as (q & Q & E & N); auto. apply N.
    exists p. split; auto. split; auto. now rewrite (H q Q E). }
  assert (D1 : forall p, In p (packages m) -> from p = HexSource -> get (name p) d1 = get (name p) (directory w)).
  { intros p I F. destruct (get_checked_out out (directory w) (name p)) as [(x & J & _)|[_ G]]; auto.
    exfalso. apply O in J as (q & a & c & s & Q & E & F' & _). assert (q = p) as -> by now apply (unique_eq m). congruence. }
  assert (NH : forall p, In p (packages m) -> from p <> HexSource -> ~ In (name p) (map name hexes)).
  { intros p I F J. apply in_map_iff in J as (q & E & J). apply Hx in J as (J1 & _ & J2 & _).
    assert (q = p) as -> by now apply (unique_eq m). tauto. }
  assert (NG : forall p, In p (packages m) -> (forall a c s, from p <> GitSource a c s) -> ~ In (name p) (map name gits)).
  { intros p I F J. apply in_map_iff in J as (q & E & J). apply Gt in J as (J1 & _ & (a & c & s & J2) & _).
    assert (q = p) as -> by now apply (unique_eq m). now apply (F a c s). }
  assert (NF : forall (g : list package) p, (forall q, In q g -> In q (packages m) /\ has_fresh l q = false) ->
    In p (packages m) -> has_fresh l p = true -> ~ In (name p) (map name g)).
  { intros g p H I F J. apply in_map_iff in J as (q & E & J). apply H in J as [J1 J2].
    assert (q = p) as -> by now apply (unique_eq m). congruence. }
  pose proof (place_get root m0 (directory w) GM) as PG. rewrite PG in GP. clear PG.
  split; auto. split; [apply place_get; auto; intros p x I N W|intros n I].
  - destruct (get_hex e hexes d2 (name p) HF) as (_ & HB & HC & HD). fold d3 in HB, HC, HD.
    destruct (get_git e gits d3 (name p) d' HG) as (_ & GB & GC).
    unfold wanted in W. destruct (from p) as [|a c s|] eqn:F; [| |discriminate].
    + injection W as <-. rewrite GB by (apply NG; auto; rewrite F; discriminate).
      destruct (has_fresh l p) eqn:Fr.
      * rewrite HC by (apply NF; auto; intros q Q; apply Hx in Q; tauto).
        apply (fresh_hex m0) in Fr as (q & Q & E & V); auto.
        rewrite D2; auto.
        -- rewrite D1; auto. rewrite <- E, <- V. apply GP; auto; [congruence|]. unfold wanted.
           destruct (S q p Q I E) as [S1 _]. now rewrite S1.
        -- intros q' Q' E'. assert (q' = q) as -> by (apply (unique_eq m0); congruence). auto.
      * apply HD; auto; [apply Hx; auto|].
        destruct (get (name p) (directory w)) as [x|] eqn:X.
        -- apply get_key, GT in X. apply in_map_iff in X as (q & E & Q).
           apply get_removes, extra_of; auto. exists q. split; auto. split; auto.
           intros (p' & P & E' & V). assert (p' = p) as -> by now apply (unique_eq m).
           assert (has_fresh l p = true); [|congruence]. apply fresh_hex; auto. exists q. auto.
        -- rewrite <- D1 in X; auto. destruct (get_removes (extra_local_packages l m) d1 (name p)) as [A B].
           destruct (in_dec text_dec (name p) (map fst (extra_local_packages l m))) as [J|J]; [now apply A|].
           unfold d2, remove_extra_packages. now rewrite B.
    + injection W as <-. destruct (has_fresh l p) eqn:Fr.
      * rewrite GB by (apply NF; auto; intros q Q; apply Gt in Q; tauto).
        rewrite HC by (apply NH; auto; rewrite F; discriminate).
        apply (fresh_git m0 p a c s) in Fr as (q & b & Q & E & V); auto.
        destruct (S q p Q I E) as [_ S2]. specialize (S2 _ _ _ _ V F).
        rewrite D2; auto.
        -- destruct (get_checked_out out (directory w) (name p)) as [(x & J & G)|[_ G]].
           ++ apply O in J as (q' & a' & c' & s' & Q' & E' & F' & ->).
              assert (q' = p) as -> by now apply (unique_eq m). unfold d1. rewrite G. congruence.
           ++ unfold d1. rewrite G, <- E. apply GP; auto; [congruence|]. unfold wanted. now rewrite V.
        -- intros q' Q' E'. assert (q' = q) as -> by (apply (unique_eq m0); congruence). auto.
      * eapply GC; eauto. apply Gt. split; auto. split; auto. split; eauto.
  - apply key_in in I as (x & I). apply (get_iff _ _ _ M4) in I.
    destruct (get_hex e hexes d2 n HF) as (_ & _ & HC & _). fold d3 in HC.
    destruct (get_git e gits d3 n d' HG) as (_ & GB & _).
    destruct (in_dec text_dec n (map name gits)) as [J|J].
    { apply in_map_iff in J as (q & <- & J). apply Gt in J. now apply in_map. }
    rewrite (GB J) in I. destruct (in_dec text_dec n (map name hexes)) as [K|K].
    { apply in_map_iff in K as (q & <- & K). apply Hx in K. now apply in_map. }
    rewrite (HC K) in I.
    destruct (in_dec text_dec n (map name (packages m))) as [X|X]; auto.
    destruct (get_checked_out out (directory w) n) as [(y & Y & _)|[Y G]].
    { apply O in Y as (q & _ & _ & _ & Q & <- & _). now apply in_map. }
    apply (extra_tidy m0 m n (directory w)); auto.
    unfold d2, remove_extra_packages in I |- *.
    destruct (get_removes (extra_local_packages l m) d1 n) as [A B].
    destruct (get_removes (extra_local_packages l m) (directory w) n) as [A' B'].
    destruct (in_dec text_dec n (map fst (extra_local_packages l m))) as [Z|Z].
    + rewrite (A Z) in I. discriminate.
    + rewrite (B Z) in I. fold l. rewrite (B' Z). fold d1 in G. congruence.
Qed.

Lemma perform_shape e md c m ups d d' m' : perform_version_resolution e md c m ups d = (d', Some m') ->
  exists a locks out ps, solve e a locks = (out, Some ps) /\ d' = checked_out out d /\ packages m' = ps
    /\ all_direct_dependencies c = inl (manifest_requirements m').
Proof.
  unfold perform_version_resolution. destruct (dependencies_for md c) as [deps|]; [|discriminate].
  destruct (locked (stack e) c m) as [locks| |]; try discriminate.
  destruct (match ups with [] => Some locks | _ => unlock_packages locks ups m end) as [locks'|]; [|discriminate].
  destruct (solve e (asked locks' m deps) locks') as [out [ps|]] eqn:S; [|discriminate].
  destruct (all_direct_dependencies c) as [reqs|]; [|discriminate]. intros [= <- <-].
  exists (asked locks' m deps), locks', out, ps. auto.
Qed.

Lemma resolve_shape e use md c ups w d r : honest e -> resolve_versions e use md c ups w = (d, Some r) ->
  exists out, d = checked_out out (directory w)
  /\ forall n x, In (n, x) out -> exists p repo commit path, In p (packages (of_manifest r)) /\ name p = n
     /\ from p = GitSource repo commit path /\ x = OfGit commit path.
Proof.
  intros H. unfold resolve_versions.
  assert (P : forall m ups d' m', perform_version_resolution e md c m ups (directory w) = (d', Some m') ->
    exists out, d' = checked_out out (directory w)
    /\ forall n x, In (n, x) out -> exists p repo commit path, In p (packages m') /\ name p = n
       /\ from p = GitSource repo commit path /\ x = OfGit commit path).
  { intros m us d' m' E. apply perform_shape in E as (a & locks & out & ps & S & -> & <- & _).
    apply H in S as [_ S]. exists out. auto. }
  assert (Q : forall (b : bool) m ex, (let (d, m) := perform_version_resolution e md c m ups (directory w) in
      (d, match m with Some m => Some (Resolved m (between_manifests ex m) b) | None => None end)) = (d, Some r) ->
    exists out, d = checked_out out (directory w)
    /\ forall n x, In (n, x) out -> exists p repo commit path, In p (packages (of_manifest r)) /\ name p = n
       /\ from p = GitSource repo commit path /\ x = OfGit commit path).
  { intros b m ex. destruct (perform_version_resolution e md c m ups (directory w)) as [d' [m'|]] eqn:E; [|discriminate].
    intros [= <- <-]. eauto. }
  destruct (disc w) as [ex|].
  - destruct (ensure_packages_exist_locally ex ups); [|discriminate].
    destruct use; [|apply Q].
    destruct (all_direct_dependencies c) as [reqs|]; [|discriminate].
    destruct (is_same_requirements _ _ _) as [same|]; [|discriminate].
    destruct (match ups with [] => _ | _ => _ end) as [[|]|]; [|apply Q|discriminate].
    intros [= <- <-]. exists []. split; auto. intros n x [].
  - destruct (perform_version_resolution e md c None [] (directory w)) as [d' [m'|]] eqn:E; [|discriminate].
    destruct (ensure_packages_exist_locally m' ups); [|discriminate]. intros [= <- <-]. eauto.
Qed.

Lemma with_new_name new c : config_name (with_new new c) = config_name c.
Proof.
  destruct new as [[l dev]|]; cbn; auto. revert c. induction l as [|[n r] l IH]; intros c; cbn; auto.
  rewrite IH. now destruct dev.
Qed.

Lemma downloads_good root w w' m0 m : good root w m0 -> downloads root w w' (Some m) -> unique m -> steady m0 m -> good root w' m.
Proof.
  intros G [e use md c new ups d Ec H E] U S. unfold resolve_and_download_versions in E.
  destruct (resolve_versions e use md (with_new new c) ups _) as [d1 [r|]] eqn:R; [|discriminate].
  apply resolve_shape in R as (out & -> & O); auto. cbn [directory] in E.
  destruct (add_missing_packages e _ _ _ _) as [d2 [|]] eqn:A; [|discriminate].
  injection E as <- <-. cbn [local] in A. rewrite with_new_name, Ec in A.
  destruct (download_step root m0 (of_manifest r) w e out d2 G U S O A) as (A1 & A2 & A3). constructor; auto.
Qed.

Lemma cleans_good root w w' m0 m : good root w m0 -> cleans root w w' (Some m) ->
  (forall p, In p (packages m) -> In p (packages m0)) -> unique m -> good root w' m.
Proof.
  intros [GL GU GM GP GT] [e c d Ec E] I U. unfold cleanup in E. cbn [disc local directory] in E.
  destruct d as [old|]; [|discriminate]. destruct (remove_extra_requirements (stack e) c old) as [[m'|]|]; try discriminate.
  injection E as <- <-. assert (M : is_map (remove_extra_packages (local w) m' (directory w))) by now apply removes_map.
  constructor; auto; cbn [directory].
  - apply place_get; auto. intros p x J N W. rewrite GL. unfold remove_extra_packages.
    destruct (get_removes (extra_local_packages (from_manifest m0) m') (directory w) (name p)) as [_ B]. rewrite B.
    + apply (proj1 (place_get root m0 (directory w) GM) GP); auto.
    + intros X. apply extra_of in X as (q & Q & En & X); auto. apply X. exists p. split; auto. split; auto.
      assert (q = p) as -> by (apply (unique_eq m0); auto). auto.
  - intros n J. apply key_in in J as (x & J). apply (get_iff _ _ _ M) in J.
    apply (extra_tidy m0 m' n (directory w)); auto. rewrite <- GL. congruence.
Qed.

Lemma steady_good root w m : steady_past root w m -> good root w m.
Proof.
  induction 1 as [d w m D U|w m0 w' m P G D U S|w m0 w' m P G D I U].
  - apply (downloads_good root (World d (LocalPackages [] []) []) w (Manifest [] [])); auto.
    + constructor; auto.
      * constructor.
      * constructor.
      * intros p x [].
      * intros n [].
    + intros p q [].
  - eapply downloads_good; eauto.
  - eapply cleans_good; eauto.
Qed.
