(** C89, C90, C92: the manifest on disc, the packages in [build/packages], and what resolution is asked. *)
From Coq Require Import NArith Arith Bool String List Lia.
From Verif Require Import Text TextProofs Version ResolveSpec ResolveProofs Locked LockedSpec LockedProofs LockedUnlockProofs
  LockedChangesProofs Fetch FetchSpec FetchProofs.
Import ListNotations.
Local Open Scope nat_scope.
Local Open Scope list_scope.

(** ** Values for examples *)
Definition v (n : N) : version := Version n 0 0 [] None.
Definition at_least (n : N) : requirement :=
  Hex (match n with 1%N => str ">= 1.0.0" | _ => str ">= 2.0.0" end) (HigherThan (v n)).
Definition a := str "a". Definition b := str "b". Definition p := str "p". Definition app := str "app".
Definition hex (n : text) (w : N) : package := Package n (v w) [] HexSource.
Definition nothing : local_packages := LocalPackages [] [].
(** A solver that finds [ps], whatever it is asked; [no] says what cannot be downloaded. *)
Definition finds (ps : list package) (no : text -> bool) : environment :=
  Environment 10 Some (Some true) (fun _ _ => ([], Some ps)) no.
Definition all_well : text -> bool := fun _ => false.

Lemma finds_honest ps no : NoDup (map name ps) -> honest (finds ps no).
Proof. intros N q l out ps' E. injection E as <- <-. split; auto. intros n x []. Qed.

(** ** C89: after a command that succeeds the manifest on disc is the one that was resolved. *)

(** A path dependency begins to require a package that is there already. No package is added,
    removed or changed, and the manifest is not written again: it still says that [p] requires
    nothing. When the project then drops its own requirement of [a], the package [a] that [p] requires is
    removed from the manifest and from the directory. *)
Theorem C89_the_manifest_on_disc_is_the_resolved_one_refuted :
  exists e c w w' m, honest e /\ resolve_and_download_versions e UseYes Dev c None [] w = (w', Some m) /\ disc w' <> Some m
    /\ exists e' c' w'' m'', cleanup e' c' w' = (w'', Some m'') /\ dependencies c' = [(p, Path p)]
       /\ (exists q, In q (packages m) /\ name q = p /\ In a (package_requirements q))
       /\ In a (map fst (directory w')) /\ In p (map name (packages m''))
       /\ ~ In a (map name (packages m'')) /\ ~ In a (map fst (directory w'')).
Proof.
  set (there := Package p (v 1) [] (LocalSource p)).
  set (now := Package p (v 1) [a] (LocalSource p)).
  set (m := Manifest [(p, Path p); (a, at_least 1)] [there; hex a 1]).
  set (e := Environment 10 Some (Some false) (fun _ _ => ([], Some [now; hex a 1])) all_well).
  set (w := World (Some m) (LocalPackages [(p, v 1); (a, v 1)] []) [(a, OfHex (v 1))]).
  exists e, (Config app [(p, Path p); (a, at_least 1)] []), w,
    (World (Some m) (LocalPackages [(a, v 1); (p, v 1)] []) [(a, OfHex (v 1))]),
    (Manifest [(a, at_least 1); (p, Path p)] [now; hex a 1]).
  split; [|split; [reflexivity|split; [discriminate|]]].
  - intros q l out ps E. injection E as <- <-. split; [|intros n x []].
    constructor; [intros [F|[]]; discriminate|constructor; [intros []|constructor]].
  - exists e, (Config app [(p, Path p)] []), (World (Some (Manifest [(p, Path p)] [there])) (LocalPackages [(p, v 1)] []) []),
      (Manifest [(p, Path p)] [there]).
    split; [reflexivity|]. split; [reflexivity|]. split; [exists now; cbn; auto|]. cbn.
    repeat split; auto; try (intros [F|[]]; discriminate).
Qed.
Print Assumptions C89_the_manifest_on_disc_is_the_resolved_one_refuted.

Lemma all_same_true can l1 l2 : all_same can l1 l2 = Some true ->
  forall n r, In (n, r) l1 -> exists r', In (n, r') l2 /\ same_place can r r'.
Proof.
  induction l1 as [|[k r0] l1 IH]; cbn; [intros _ n r []|].
  destruct (same_requirements can r0 (get k l2)) as [[|]|] eqn:S; try discriminate. intros A n r [E|I]; [|auto].
  injection E as -> ->. destruct (get n l2) as [r'|] eqn:G; [|destruct r; discriminate].
  apply get_in in G. exists r'. split; auto.
  assert (H : forall x y, (forall a b, ~ (x = Path a /\ y = Path b)) -> same_requirements can x (Some y) = Some true -> same_place can x y).
  { intros x y N E. unfold same_requirements in E.
    assert (X : requirement_eqb x y = true).
    { destruct x; try congruence. destruct y; try congruence. exfalso. eapply N; eauto. }
    apply requirement_eqb_same in X. unfold same_place. destruct x, y; auto. exfalso. eapply N; eauto. }
  destruct r as [s x|a1|g f q], r' as [s' x'|a2|g' f' q']; try (apply H; auto; intros ? ? [? ?]; discriminate).
  cbn in S |- *. destruct (can a1) as [y1|]; [|discriminate]. destruct (can a2) as [y2|]; [|discriminate].
  injection S as S. apply text_eqb_eq in S. now subst.
Qed.

Lemma same_true can l1 l2 : is_map l1 -> is_map l2 -> is_same_requirements can l1 l2 = Some true ->
  (forall n r, In (n, r) l1 -> exists r', In (n, r') l2 /\ same_place can r r')
  /\ (forall n r', In (n, r') l2 -> exists r, In (n, r) l1 /\ same_place can r r').
Proof.
  unfold is_same_requirements. destruct (Nat.eqb (length l1) (length l2)) eqn:L; cbn [negb]; [|discriminate].
  apply Nat.eqb_eq in L. intros M1 M2 A. pose proof (all_same_true _ _ _ A) as B. split; auto.
  intros n r' I. assert (J : In n (map fst l1)).
  { apply (NoDup_length_incl M1 (l' := map fst l2)); [rewrite !map_length; lia| |eapply in_key; eauto].
    intros k K. apply key_in in K as (r & K). apply B in K as (r2 & K & _). eapply in_key; eauto. }
  apply key_in in J as (r & J). exists r. split; auto. destruct (B _ _ J) as (r2 & K & S).
  assert (r' = r2); [|now subst]. apply (get_iff _ _ _ M2) in I, K. congruence.
Qed.

(** It is, or stays as it was, and then differs in no more than what packages require, where path dependencies
    are, and how the same requirements are written. *)
Theorem C89_the_manifest_on_disc_is_the_resolved_one_partial : forall e use md c new_package updates w w' m,
  honest e -> (forall d, disc w = Some d -> unique d /\ is_map (manifest_requirements d)) ->
  resolve_and_download_versions e use md c new_package updates w = (w', Some m) ->
  disc w' = Some m
  \/ exists d, disc w = Some d /\ disc w' = Some d /\ same_packages d m
     /\ (forall n r, In (n, r) (manifest_requirements d) -> exists r', In (n, r') (manifest_requirements m) /\ same_place (canonical e) r r')
     /\ (forall n r', In (n, r') (manifest_requirements m) -> exists r, In (n, r) (manifest_requirements d) /\ same_place (canonical e) r r').
Proof.
  intros e use md c new ups w w' m H D. unfold resolve_and_download_versions.
  destruct (resolve_versions e use md (with_new new c) ups w) as [d1 [r|]] eqn:R; [|discriminate].
  destruct (add_missing_packages e (of_manifest r) _ _ _) as [d2 [|]]; [|discriminate]. intros [= <- <-]. cbn [disc].
  destruct (any_changes r) eqn:A; [tauto|]. revert R. unfold resolve_versions.
  destruct (disc w) as [ex|].
  2: { destruct (perform_version_resolution e md (with_new new c) None [] (directory w)) as [d' [m'|]]; [|discriminate].
       destruct (ensure_packages_exist_locally m' ups); [|discriminate]. intros [= <- <-]. discriminate. }
  destruct (D ex eq_refl) as [U M]. destruct (ensure_packages_exist_locally ex ups); [|discriminate].
  destruct use.
  - destruct (all_direct_dependencies (with_new new c)) as [reqs|] eqn:AD; [|discriminate].
    destruct (is_same_requirements (canonical e) (manifest_requirements ex) reqs) as [[|]|] eqn:S; [| |discriminate].
    + destruct (match ups with [] => _ | _ => _ end) as [[|]|]; [|intros R|discriminate].
      * intros [= <- <-]. left. reflexivity.
      * destruct (perform_version_resolution e md (with_new new c) (Some ex) ups (directory w)) as [d' [m'|]] eqn:P; [|discriminate].
        injection R as <- <-. right. exists ex. split; auto. split; auto.
        apply perform_shape in P as (q & locks & out & ps & SO & _ & PK & AR). rewrite AD in AR. injection AR as AR.
        cbn [of_manifest]. unfold any_changes in A. cbn [requirements_changed package_changes negb orb] in A.
        split.
        -- apply any_changes_spec; auto. rewrite PK. apply H in SO. tauto.
        -- rewrite <- AR. apply same_true; auto. unfold all_direct_dependencies in AD.
           pose proof (add_direct_spec (dependencies (with_new new c) ++ dev_dependencies (with_new new c)) [] (NoDup_nil _)) as AS.
           rewrite AD in AS. tauto.
    + intros R. exfalso. replace (match ups with [] => Some false | _ => Some false end) with (Some false) in R by now destruct ups.
      destruct (perform_version_resolution _ _ _ _ _ _) as [d' [m'|]]; [|discriminate]. injection R as <- <-. discriminate.
  - destruct (perform_version_resolution _ _ _ _ _ _) as [d' [m'|]]; [|discriminate]. intros [= <- <-]. discriminate.
Qed.
Print Assumptions C89_the_manifest_on_disc_is_the_resolved_one_partial.

(** [gleam remove] writes what remains. *)
Theorem C89_the_manifest_after_removing : forall e c w w' m, cleanup e c w = (w', Some m) ->
  disc w' = Some m /\ exists d, disc w = Some d /\ remove_extra_requirements (stack e) c d = inl (Some m).
Proof.
  intros e c w w' m. unfold cleanup. destruct (disc w) as [d|]; [|discriminate].
  destruct (remove_extra_requirements (stack e) c d) as [[m'|]|] eqn:R; try discriminate. intros [= <- <-]. split; eauto.
Qed.
Print Assumptions C89_the_manifest_after_removing.

(** A command that fails leaves the manifest and the record of local packages. *)
Theorem C89_failures_leave_the_manifest : forall e use md c new_package updates w w',
  resolve_and_download_versions e use md c new_package updates w = (w', None) -> disc w' = disc w /\ local w' = local w.
Proof.
  intros e use md c new ups w w'. unfold resolve_and_download_versions.
  destruct (resolve_versions e use md (with_new new c) ups w) as [d1 [r|]]; [|intros [= <-]; auto].
  destruct (add_missing_packages e (of_manifest r) _ _ _) as [d2 [|]]; intros [= <-]; auto.
Qed.
Print Assumptions C89_failures_leave_the_manifest.

Example C89_example :
  let c := Config app [(a, at_least 1)] [] in
  resolve_and_download_versions (finds [hex a 1] all_well) UseYes Dev c None [] (World None nothing [])
    = (World (Some (Manifest [(a, at_least 1)] [hex a 1])) (LocalPackages [(a, v 1)] []) [(a, OfHex (v 1))],
       Some (Manifest [(a, at_least 1)] [hex a 1]))
  /\ resolve_and_download_versions (finds [hex a 2] all_well) UseYes Dev c None [a]
       (World (Some (Manifest [(a, at_least 1)] [hex a 1])) (LocalPackages [(a, v 1)] []) [(a, OfHex (v 1))])
    = (World (Some (Manifest [(a, at_least 1)] [hex a 2])) (LocalPackages [(a, v 2)] []) [(a, OfHex (v 2))],
       Some (Manifest [(a, at_least 1)] [hex a 2]))
  /\ resolve_and_download_versions (finds [hex b 1; hex a 2] all_well) UseYes Dev c (Some ([(b, at_least 1)], true)) []
       (World (Some (Manifest [(a, at_least 1)] [hex a 2])) (LocalPackages [(a, v 2)] []) [(a, OfHex (v 2))])
    = (World (Some (Manifest [(b, at_least 1); (a, at_least 1)] [hex b 1; hex a 2])) (LocalPackages [(a, v 2); (b, v 1)] [])
         [(b, OfHex (v 1)); (a, OfHex (v 2))],
       Some (Manifest [(b, at_least 1); (a, at_least 1)] [hex b 1; hex a 2])).
Proof. repeat split; reflexivity. Qed.

(** ** C90: after a command that succeeds [build/packages] has every package of the manifest from where the
    manifest says. *)

(** A download fails: the package is not there any more, and a later command that succeeds, for the
    same manifest, does not notice. *)
Theorem C90_packages_are_in_place_refuted :
  exists root w w' m, past root w /\ downloads root w w' (Some m) /\ unique m /\ disc w' = Some m /\ ~ in_place root m (directory w').
Proof.
  set (c := Config app [(a, at_least 1)] []). set (m := Manifest [(a, at_least 1)] [hex a 1]).
  set (l := LocalPackages [(a, v 1)] []).
  assert (U : forall n, NoDup (map name [hex a n])) by (intros n; cbn; constructor; [intros []|constructor]).
  exists app, (World (Some m) l []), (World (Some m) l []), m.
  split; [|split; [|split; [apply U|split; [reflexivity|]]]].
  - apply past_downloads with (World (Some m) l [(a, OfHex (v 1))]) None.
    + apply past_downloads with (World None nothing []) (Some m); [constructor|].
      apply (downloads_ app _ _ _ (finds [hex a 1] all_well) UseYes Dev c None [] None);
        [reflexivity|apply finds_honest, U|reflexivity].
    + apply (downloads_ app _ _ _ (finds [hex a 2] (fun _ => true)) UseYes Dev c None [a] (Some m));
        [reflexivity|apply finds_honest, U|reflexivity].
  - apply (downloads_ app _ _ _ (finds [hex a 1] all_well) UseYes Dev c None [] (Some m));
      [reflexivity|apply finds_honest, U|reflexivity].
  - intros H. destruct (H (hex a 1) (OfHex (v 1))) as [[] _]; cbn; auto. discriminate.
Qed.
Print Assumptions C90_packages_are_in_place_refuted.

(** Nothing fails, but a package comes from Hex in the version that it had from a git repository, whose files
    stay. *)
Theorem C90_packages_are_in_place_after_moving_refuted :
  exists root w m0 w' m, steady_past root w m0 /\ downloads root w w' (Some m) /\ unique m /\ disc w' = Some m
    /\ ~ in_place root m (directory w').
Proof.
  set (g := Git (str "https://example.com") (str "main") None).
  set (ga := Package a (v 1) [] (GitSource (str "https://example.com") (str "c1") None)).
  set (c0 := Config app [(a, g)] []). set (m0 := Manifest [(a, g)] [ga]).
  set (c := Config app [(a, at_least 1)] []). set (m := Manifest [(a, at_least 1)] [hex a 1]).
  assert (U : forall q, NoDup (map name [q])) by (intros q; cbn; constructor; [intros []|constructor]).
  exists app, (World (Some m0) (LocalPackages [(a, v 1)] [(a, (str "c1", None))]) [(a, OfGit (str "c1") None)]), m0,
    (World (Some m) (LocalPackages [(a, v 1)] []) [(a, OfGit (str "c1") None)]), m.
  split; [|split; [|split; [apply U|split; [reflexivity|]]]].
  - apply (steady_first app None); [|apply U].
    apply (downloads_ app _ _ _ (finds [ga] all_well) UseYes Dev c0 None [] None); [reflexivity|apply finds_honest, U|reflexivity].
  - apply (downloads_ app _ _ _ (finds [hex a 1] all_well) UseYes Dev c None [] (Some m0));
      [reflexivity|apply finds_honest, U|reflexivity].
  - intros H. destruct (H (hex a 1) (OfHex (v 1))) as [[F|[]] _]; cbn; auto; discriminate.
Qed.
Print Assumptions C90_packages_are_in_place_after_moving_refuted.

(** Nothing fails, but version control brings a manifest with another package, and then [gleam remove]
    records it as downloaded. *)
Theorem C90_packages_are_in_place_after_removing_refuted :
  exists root w1 m1 w w2 w' m, steady_past root w1 m1 /\ cleans root w1 w w2 /\ downloads root w w' (Some m)
    /\ unique m /\ disc w' = Some m /\ ~ in_place root m (directory w').
Proof.
  set (c1 := Config app [(a, at_least 1)] []). set (m1 := Manifest [(a, at_least 1)] [hex a 1]).
  set (both := Manifest [(a, at_least 1); (b, at_least 1)] [hex a 1; hex b 1]).
  set (c := Config app [(b, at_least 1)] []). set (m := Manifest [(b, at_least 1)] [hex b 1]).
  assert (U : forall q, NoDup (map name [q])) by (intros q; cbn; constructor; [intros []|constructor]).
  exists app, (World (Some m1) (LocalPackages [(a, v 1)] []) [(a, OfHex (v 1))]), m1,
    (World (Some m) (LocalPackages [(b, v 1)] []) []), (Some m), (World (Some m) (LocalPackages [(b, v 1)] []) []), m.
  split; [|split; [|split; [|split; [apply U|split; [reflexivity|]]]]].
  - apply (steady_first app None); [|apply U].
    apply (downloads_ app _ _ _ (finds [hex a 1] all_well) UseYes Dev c1 None [] None); [reflexivity|apply finds_honest, U|reflexivity].
  - apply (cleans_ app _ _ _ (finds [] all_well) c (Some both)); reflexivity.
  - apply (downloads_ app _ _ _ (finds [hex b 1] all_well) UseYes Dev c None [] (Some m));
      [reflexivity|apply finds_honest, U|reflexivity].
  - intros H. destruct (H (hex b 1) (OfHex (v 1))) as [[] _]; cbn; auto. discriminate.
Qed.
Print Assumptions C90_packages_are_in_place_after_removing_refuted.

(** What is missing are these three: it holds as long as no command fails, no package comes from Hex in the version
    that it had from elsewhere, and what is cleaned up was resolved before. Nothing else is there either. *)
Theorem C90_packages_are_in_place_partial : forall root w m, steady_past root w m ->
  in_place root m (directory w) /\ forall n, In n (map fst (directory w)) -> In n (map name (packages m)).
Proof. intros root w m H. apply steady_good in H. destruct H. split; auto. Qed.
Print Assumptions C90_packages_are_in_place_partial.

Example C90_example :
  let git := Package b (v 1) [] (GitSource (str "https://example.com") (str "c1") None) in
  let c := Config app [(a, at_least 1); (b, Git (str "https://example.com") (str "main") None)] [] in
  exists w m, steady_past app w m /\ directory w = [(a, OfHex (v 2)); (b, OfGit (str "c1") None)]
    /\ packages m = [hex a 2; git].
Proof.
  cbn zeta. set (git := Package b (v 1) [] (GitSource (str "https://example.com") (str "c1") None)).
  set (c := Config app [(a, at_least 1); (b, Git (str "https://example.com") (str "main") None)] []).
  assert (U : forall n, NoDup (map name [hex a n; git])).
  { intros n. cbn. constructor; [intros [F|[]]; discriminate|constructor; [intros []|constructor]]. }
  set (m n := Manifest [(b, Git (str "https://example.com") (str "main") None); (a, at_least 1)] [hex a n; git]).
  exists (World (Some (m 2%N)) (LocalPackages [(b, v 1); (a, v 2)] [(b, (str "c1", None))]) [(a, OfHex (v 2)); (b, OfGit (str "c1") None)]), (m 2%N).
  split; [|split; reflexivity].
  apply steady_downloads with
    (World (Some (m 1%N)) (LocalPackages [(b, v 1); (a, v 1)] [(b, (str "c1", None))]) [(b, OfGit (str "c1") None); (a, OfHex (v 1))]) (m 1%N).
  - apply (steady_first app None); [|apply U].
    apply (downloads_ app _ _ _ (finds [hex a 1; git] all_well) UseYes Dev c None [] None);
      [reflexivity|apply finds_honest, U|reflexivity].
  - apply (downloads_ app _ _ _
      (Environment 10 Some (Some true) (fun _ _ => ([(b, OfGit (str "c1") None)], Some [hex a 2; git])) all_well)
      UseYes Dev c None [a] (Some (m 1%N))); [reflexivity| |reflexivity].
    intros q l out ps E. injection E as <- <-. split; [apply U|]. intros n x [E|[]]. injection E as <- <-.
    exists git, (str "https://example.com"), (str "c1"), None. cbn. auto.
  - apply U.
  - intros q r I J E. cbn in I, J. destruct I as [<-|[<-|[]]], J as [<-|[<-|[]]]; try discriminate; split; try discriminate; auto.
Qed.

(** ** C92: resolution is asked for the dependencies of the project, with the commits of git packages that
    stay locked, and given the versions that stay locked; what it finds is the manifest. *)
Definition asked_by (md : mode) (c : config) (n : text) (r : requirement) : Prop :=
  match md with Prod => In (n, r) (dependencies c) | _ => declared c n r end.

Lemma nothing_unlocked m locks n : ~ unlocked m locks [] n.
Proof. intros H. induction H; auto. Qed.

Lemma asked_spec locks m deps n r' : unique m ->
  (In (n, r') (asked locks (Some m) deps) <-> exists r, In (n, r) deps /\ asked_for m locks n r r').
Proof.
  intros U. unfold asked. rewrite in_map_iff.
  assert (G : forall n git ref path r', r' = Git git (ref_to_use locks (Some m) n ref) path <-> asked_for m locks n (Git git ref path) r').
  { intros k git ref path r0. unfold ref_to_use, asked_for.
    assert (P : forall q, In q (packages m) -> name q = k -> find (fun p => text_eqb (name p) k) (packages m) = Some q).
    { intros q I E. destruct (find (fun p => text_eqb (name p) k) (packages m)) as [q'|] eqn:F.
      - apply find_some in F as [F1 F2]. apply text_eqb_eq in F2. f_equal. apply (unique_eq m); congruence.
      - apply (find_none _ _ F) in I. apply text_eqb_neq in I. congruence. }
    destruct (contains_key k locks) eqn:K.
    - apply contains_key_iff in K. destruct (find (fun p => text_eqb (name p) k) (packages m)) as [q|] eqn:F.
      + apply find_some in F as [F1 F2]. apply text_eqb_eq in F2. destruct (from q) as [|repo commit path'|] eqn:S.
        * split; [intros ->; right; split; auto|intros [(q' & x & y & z & _ & I & E & S' & _)|[E _]]; auto].
          -- intros (q' & x & y & z & _ & I & E & S'). specialize (P q' I E). injection P as <-. congruence.
          -- specialize (P q' I E). injection P as <-. congruence.
        * split; [intros ->; left; exists q, repo, commit, path'; auto 10|intros [(q' & x & y & z & _ & I & E & S' & ->)|[_ N]]].
          -- specialize (P q' I E). injection P as <-. congruence.
          -- exfalso. apply N. exists q, repo, commit, path'. auto.
        * split; [intros ->; right; split; auto|intros [(q' & x & y & z & _ & I & E & S' & _)|[E _]]; auto].
          -- intros (q' & x & y & z & _ & I & E & S'). specialize (P q' I E). injection P as <-. congruence.
          -- specialize (P q' I E). injection P as <-. congruence.
      + split; [intros ->; right; split; auto|intros [(q' & x & y & z & _ & I & E & _)|[E _]]; auto].
        * intros (q' & x & y & z & _ & I & E & _). specialize (P q' I E). discriminate.
        * specialize (P q' I E). discriminate.
    - assert (K' : ~ In k (map fst locks)) by (rewrite <- contains_key_iff; unfold contains_key in *; congruence).
      split; [intros ->; right; split; auto|intros [(q' & x & y & z & I & _)|[E _]]; auto; tauto].
      intros (q' & x & y & z & I & _). tauto. }
  split.
  - intros ([k r] & E & I). exists r. destruct r; injection E as -> <-; split; auto; try reflexivity. now apply G.
  - intros (r & I & A). exists (n, r). split; auto. destruct r; try (cbn in A; now subst). apply G in A. now subst.
Qed.

Theorem C92_what_resolution_is_asked : forall e md c m updates d d' m',
  tables c -> is_map (manifest_requirements m) -> unique m ->
  perform_version_resolution e md c (Some m) updates d = (d', Some m') ->
  exists kept locks request out, solve e request locks = (out, Some (packages m'))
  /\ (forall n w, In (n, w) kept <-> stays_locked c m n w)
  /\ (forall n w, In (n, w) locks <-> In (n, w) kept /\ ~ unlocked m kept updates n)
  /\ (forall n r', In (n, r') request <-> exists r, asked_by md c n r /\ asked_for m locks n r r')
  /\ (forall n r, In (n, r) (manifest_requirements m') <-> declared c n r).
Proof.
  intros e md c m ups d d' m' T M U. unfold perform_version_resolution.
  pose proof (locked_spec (stack e) c m T M) as L. pose proof (direct_spec c T) as DS.
  destruct (dependencies_for md c) as [deps|] eqn:DF; [|discriminate].
  destruct (locked (stack e) c (Some m)) as [kept| |]; try discriminate. destruct L as (_ & L & _).
  assert (X : exists locks, (match ups with [] => Some kept | _ => unlock_packages kept ups (Some m) end) = Some locks
    /\ forall n w, In (n, w) locks <-> In (n, w) kept /\ ~ unlocked m kept ups n).
  { destruct ups as [|u ups].
    - exists kept. split; auto. intros n w. pose proof (nothing_unlocked m kept n). tauto.
    - destruct (unlock_packages_spec m kept (u :: ups)) as (l & E & A & B & C). exists l. split; auto.
      intros n w. split; [intros I; split; [auto|now apply (C U n w)]|intros [I V]; destruct (B n w I); tauto]. }
  destruct X as (locks & -> & X).
  destruct (solve e (asked locks (Some m) deps) locks) as [out [ps|]] eqn:S; [|discriminate].
  destruct (all_direct_dependencies c) as [reqs|] eqn:AD; [|discriminate]. intros [= <- <-].
  exists kept, locks, (asked locks (Some m) deps), out. split; [exact S|]. split; [exact L|]. split; [exact X|].
  split; [|apply DS]. intros n r'. rewrite asked_spec; auto.
  assert (Y : forall r, In (n, r) deps <-> asked_by md c n r).
  { intros r. destruct md; cbn in DF |- *; try (rewrite AD in DF; injection DF as <-; apply DS). now injection DF as <-. }
  split; intros (r & I & A); exists r; split; auto; now apply Y.
Qed.
Print Assumptions C92_what_resolution_is_asked.

(** Without a manifest, or when it is not to be used, nothing is locked. *)
Theorem C92_resolution_without_a_manifest : forall e md c updates d d' m', tables c ->
  perform_version_resolution e md c None updates d = (d', Some m') ->
  exists request out, solve e request [] = (out, Some (packages m'))
  /\ (forall n r, In (n, r) request <-> asked_by md c n r)
  /\ (forall n r, In (n, r) (manifest_requirements m') <-> declared c n r).
Proof.
  intros e md c ups d d' m' T. unfold perform_version_resolution. pose proof (direct_spec c T) as DS.
  destruct (dependencies_for md c) as [deps|] eqn:DF; [|discriminate]. cbn [locked].
  assert (X : (match ups with [] => Some [] | _ => unlock_packages [] ups None end) = Some (@nil (text * version))).
  { destruct ups as [|u ups]; auto. cbn. f_equal. generalize ups. clear. induction ups as [|u ups IH]; cbn; auto. }
  rewrite X. destruct (solve e (asked [] None deps) []) as [out [ps|]] eqn:S; [|discriminate].
  destruct (all_direct_dependencies c) as [reqs|] eqn:AD; [|discriminate]. intros [= <- <-].
  exists (asked [] None deps), out. split; [exact S|]. split; [|apply DS]. intros n r.
  assert (E : asked [] None deps = deps).
  { unfold asked. rewrite <- (map_id deps) at 2. apply map_ext. intros [k r0]. now destruct r0. }
  rewrite E. destruct md; cbn in DF |- *; try (rewrite AD in DF; injection DF as <-; apply DS). now injection DF as <-.
Qed.
Print Assumptions C92_resolution_without_a_manifest.

(** If the requirements are those of the manifest, and no configuration of a path dependency changed, nothing is
    resolved: the manifest stays, whatever the solver would say. *)
Theorem C92_unchanged_projects_are_not_resolved : forall e md c w m w' r,
  disc w = Some m -> tables c -> is_map (manifest_requirements m) -> (forall q, canonical e q <> None) ->
  path_dependency_configs_unchanged e = Some true ->
  (forall n, ~ (In n (map fst (dependencies c)) /\ In n (map fst (dev_dependencies c)))) ->
  (forall n r, In (n, r) (manifest_requirements m) -> exists r', declared c n r' /\ same_place (canonical e) r r') ->
  (forall n r', declared c n r' -> exists r, In (n, r) (manifest_requirements m) /\ same_place (canonical e) r r') ->
  resolve_and_download_versions e UseYes md c None [] w = (w', r) ->
  disc w' = Some m /\ (r = None \/ r = Some m).
Proof.
  intros e md c w m w' r D T M C P B R1 R2. unfold resolve_and_download_versions, resolve_versions. cbn [with_new].
  rewrite D. cbn [ensure_packages_exist_locally forallb].
  pose proof (direct_spec c T) as DS. destruct (all_direct_dependencies c) as [reqs|n]; [|now elim (B n)].
  destruct DS as (M' & DS & _).
  destruct (is_same_requirements_spec (canonical e) _ _ C M M') as [_ [_ S]].
  rewrite S, P.
  - cbn [of_manifest no_change]. destruct (add_missing_packages _ _ _ _ _) as [d2 [|]]; intros [= <- <-]; auto.
  - split.
    + intros n q I. destruct (R1 n q I) as (q' & J & K). exists q'. split; auto. now apply DS.
    + intros n q' I. apply DS in I. auto.
Qed.
Print Assumptions C92_unchanged_projects_are_not_resolved.

(** Otherwise it is resolved: when the project changed, when packages are to be updated, which must be
    there, and when the manifest is not to be used, which then is not. *)
Theorem C92_when_resolution_is_asked : forall e use md c updates w d r,
  resolve_versions e use md c updates w = (d, Some r) ->
  (forall n, In n updates -> exists q, name q = n
     /\ In q (packages match disc w with Some m => m | None => of_manifest r end))
  /\ ((use = UseYes /\ updates = [] /\ path_dependency_configs_unchanged e = Some true /\ disc w = Some (of_manifest r)
       /\ (tables c -> is_map (manifest_requirements (of_manifest r)) ->
           (forall n r', In (n, r') (manifest_requirements (of_manifest r)) -> exists r'', declared c n r'' /\ same_place (canonical e) r' r'')
           /\ (forall n r'', declared c n r'' -> exists r', In (n, r') (manifest_requirements (of_manifest r)) /\ same_place (canonical e) r' r'')))
      \/ perform_version_resolution e md c
           (match use with UseYes => disc w | UseNo => None end)
           (match disc w with Some _ => updates | None => [] end) (directory w)
         = (d, Some (of_manifest r))).
Proof.
  intros e use md c ups w d r. unfold resolve_versions.
  assert (EN : forall m, ensure_packages_exist_locally m ups = true -> forall n, In n ups -> exists q, name q = n /\ In q (packages m)).
  { intros m E n I. unfold ensure_packages_exist_locally in E. rewrite forallb_forall in E. apply E in I.
    apply existsb_exists in I as (q & I & T). apply text_eqb_eq in T. eauto. }
  destruct (disc w) as [ex|].
  - destruct (ensure_packages_exist_locally ex ups) eqn:E; [|discriminate]. intros R. split; [now apply EN|].
    destruct use.
    + destruct (all_direct_dependencies c) as [reqs|] eqn:AD; [|discriminate].
      destruct (is_same_requirements (canonical e) (manifest_requirements ex) reqs) as [same|] eqn:S; [|discriminate].
      destruct (match ups with [] => _ | _ => _ end) as [[|]|] eqn:X; [| |discriminate].
      * injection R as <- <-. left. cbn [of_manifest no_change]. destruct ups; [|discriminate]. destruct same; [|discriminate].
        split; [auto|]. split; [auto|]. split; [exact X|]. split; [auto|]. intros T M. pose proof (direct_spec c T) as DS. rewrite AD in DS. destruct DS as (M' & DS & _).
        destruct (same_true _ _ _ M M' S) as [A B]. split.
        -- intros n q I. apply A in I as (q' & I & J). exists q'. split; auto. now apply DS.
        -- intros n q I. apply DS, B in I. auto.
      * right. destruct (perform_version_resolution _ _ _ _ _ _) as [d' [m'|]]; [|discriminate]. now injection R as <- <-.
    + right. destruct (perform_version_resolution _ _ _ _ _ _) as [d' [m'|]]; [|discriminate]. now injection R as <- <-.
  - destruct (perform_version_resolution e md c None [] (directory w)) as [d' [m'|]] eqn:P; [|discriminate].
    destruct (ensure_packages_exist_locally m' ups) eqn:E; [|discriminate]. intros [= <- <-]. split; [now apply EN|].
    right. destruct use; auto.
Qed.
Print Assumptions C92_when_resolution_is_asked.

(** [a] is updated, the git package [b] keeps its commit. *)
Example C92_example :
  let g ref := Git (str "https://example.com") (str ref) None in
  let m := Manifest [(a, at_least 1); (b, g "main"%string)]
    [hex a 1; Package b (v 1) [] (GitSource (str "https://example.com") (str "c1") None)] in
  let c := Config app [(a, at_least 1); (b, g "main"%string)] [] in
  let e := Environment 10 Some (Some true) (fun request locks =>
    if list_eq_dec (list_eq_dec N.eq_dec) (map fst locks) [b] then
      match request with
      | [(_, Git _ ref _); (_, Hex _ _)] => ([], Some [hex a 2; Package b (v 1) [] (GitSource (str "https://example.com") ref None)])
      | _ => ([], None)
      end
    else ([], None)) all_well in
  perform_version_resolution e Dev c (Some m) [a] []
  = ([], Some (Manifest [(b, g "main"%string); (a, at_least 1)]
       [hex a 2; Package b (v 1) [] (GitSource (str "https://example.com") (str "c1") None)])).
Proof. reflexivity. Qed.
