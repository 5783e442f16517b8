(** C97 - C100: adding packages to a project. *)
From Coq Require Import NArith Arith Bool String List Lia ZifyBool ZifyNat ZifyN.
From Verif Require Import Text TextProofs Version VersionSpec VersionProofs VersionRangeProofs ResolveSpec ResolveProofs Locked LockedSpec LockedProofs
  LockedUnlockProofs LockedChangesProofs Fetch FetchSpec FetchProofs P_Fetch Add AddSpec AddProofs.
Import ListNotations.
Local Open Scope list_scope.

(** ** C97: specifiers ask for the versions that they seem to ask for. *)

(** A version with a dot in what it says about its pre-release is taken to have more than three numbers. *)
Theorem C97_specifiers_are_understood_refuted :
  exists s n allowed, asks s n allowed /\ parse_gleam_add_specifier s = inr (InvalidVersionFormat (str "1.0.0-rc.1")).
Proof.
  exists (str "wisp@1.0.0-rc.1"), (str "wisp"), (fun x => same_precedence x (Version 1 0 0 [AlphaNumeric (str "rc"); Numeric 1] None)).
  split; [|reflexivity].
  apply (asks_version (str "wisp") (Version 1 0 0 [AlphaNumeric (str "rc"); Numeric 1] None)); cbn [major minor patch build]; try lia; auto.
  - cbn. intuition discriminate.
  - unfold legal_version. cbn [major minor patch pre build]. repeat split; try lia. constructor; [|constructor; [cbn; lia|constructor]].
    split.
    + apply one_piece. unfold legal_piece, alphanumeric, not_keyword. repeat split; try discriminate; repeat constructor.
      intros (r & E & _). discriminate.
    + intros n _ E. pose proof (decimal_digits n) as D. rewrite <- E in D. inversion D. discriminate.
Qed.
Print Assumptions C97_specifiers_are_understood_refuted.

Theorem C97_specifiers_are_understood_partial : forall s n allowed, asks s n allowed ->
  (forall v, s = n ++ str "@" ++ show v -> legal_version v -> build v = None -> undotted v) ->
  exists spec r, parse_gleam_add_specifier s = inl (n, Hex spec r) /\ parse_range spec = Ok r /\ forall x, contains r x = true <-> allowed x.
Proof. exact specifier_understood. Qed.
Print Assumptions C97_specifiers_are_understood_partial.

(** Whatever is understood is about what is before the first [@], and a requirement that can be read again. *)
Theorem C97_what_is_understood : forall s n q, parse_gleam_add_specifier s = inl (n, q) ->
  named s n /\ exists spec r, q = Hex spec r /\ parse_range spec = Ok r.
Proof. intros s n q E. apply specifier_shape in E as (A & B & C). split; auto. now split. Qed.
Print Assumptions C97_what_is_understood.

(** Refused are specifiers with something that does not begin as a number, or with more than two dots. *)
Theorem C97_what_is_refused : forall n t, ~ In 64%N n ->
  (match t with [] => True | c :: _ => is_digit c = false /\ c <> 43%N end)
  \/ (exists a b c d, t = a ++ str "." ++ b ++ str "." ++ c ++ str "." ++ d) ->
  parse_gleam_add_specifier (n ++ str "@" ++ t) = inr (InvalidVersionFormat t).
Proof.
  intros n t N H. unfold parse_gleam_add_specifier. rewrite split_at by auto. destruct H as [H|(a & b & c & d & E)].
  - assert (X : parse_usize (hd [] (split 46 t)) = None); [|now rewrite X].
    destruct t as [|c t]; [reflexivity|]. destruct H as [D P]. cbn [split].
    destruct (split 46 t) as [|part parts] eqn:S; [reflexivity|]. destruct (c =? 46)%N eqn:E; cbn [hd]; [reflexivity|].
    apply parse_usize_none. auto.
  - destruct (parse_usize _) as [num|]; auto.
    assert (L : forall l, (4 <= length (split 46 (l ++ str "." ++ b ++ str "." ++ c ++ str "." ++ d)))%nat).
    { assert (G : forall l r k, (k <= length (split 46 r))%nat -> (S k <= length (split 46 (l ++ str "." ++ r)))%nat).
      { intros l r k K. induction l as [|x l IH].
        - change ([] ++ str "." ++ r) with (46%N :: r). cbn [split]. destruct (split 46 r) eqn:S; [now apply split_nonempty in S|].
          cbn [N.eqb Pos.eqb length] in *. lia.
        - cbn [List.app split]. cbn [List.app] in IH. destruct (split 46 (l ++ str "." ++ r)) as [|y ys] eqn:S; [cbn in IH; lia|].
          destruct (x =? 46)%N; cbn [length] in *; lia. }
      intros l. apply G, G, G. destruct (split 46 d) eqn:S; [now apply split_nonempty in S|]. cbn. lia. }
    specialize (L a). rewrite <- E in L. destruct (split 46 t) as [|p1 [|p2 [|p3 [|p4 l]]]]; cbn [length] in L; try lia; auto.
Qed.
Print Assumptions C97_what_is_refused.

Example C97_example :
  asks (str "wisp@1.2") (str "wisp") (compatible (release 1 2 0))
  /\ (exists r, parse_gleam_add_specifier (str "wisp@1.2") = inl (str "wisp", Hex (str ">= 1.2.0 and < 2.0.0") r)
       /\ map (contains r) [release 1 1 9; release 1 2 0; release 1 9 0; release 2 0 0] = [false; true; true; false])
  /\ (exists r, parse_gleam_add_specifier (str "wisp@1.2.3") = inl (str "wisp", Hex (str "1.2.3") r)
       /\ map (contains r) [release 1 2 2; release 1 2 3; release 1 2 4] = [false; true; false])
  /\ (exists r, parse_gleam_add_specifier (str "wisp") = inl (str "wisp", Hex (str ">= 0.0.0") r) /\ contains r (release 7 0 0) = true)
  /\ parse_gleam_add_specifier (str "wisp@latest") = inr (InvalidVersionFormat (str "latest"))
  /\ parse_gleam_add_specifier (str "wisp@1.2.3.4") = inr (InvalidVersionFormat (str "1.2.3.4")).
Proof.
  split; [|split; [eexists; split; reflexivity|split; [eexists; split; reflexivity|split; [eexists; split; reflexivity|split; reflexivity]]]].
  apply (asks_minor (str "wisp") 1 2); try lia. cbn. intuition discriminate.
Qed.

(** ** C98: what is written can be read again, and allows what is compatible with the version found. *)
Definition wisp := str "wisp".
Definition found (x : version) : environment := finds [Package wisp x [] HexSource] all_well.

(** A version with metadata of its build is written as it is into a range, where none can be. *)
Theorem C98_what_is_written_can_be_read_refuted :
  exists e g w g' m' w', honest e /\ (exists x, legal_version x /\ e = found x) /\ read_config g <> None
    /\ command e [wisp] false g w = inl (g', m', w') /\ read_config g' = None /\ read_manifest m' = None.
Proof.
  set (x := Version 1 2 3 [] (Some (str "b"))).
  exists (found x), (GleamToml app [] []), (World None nothing []),
    (GleamToml app [(wisp, Range (str ">= 1.2.3+b and < 2.0.0"))] []),
    (ManifestToml [(wisp, Range (str ">= 1.2.3+b and < 2.0.0"))] [Package wisp x [] HexSource]),
    (World (Some (Manifest [(wisp, Hex (str ">= 0.0.0") (HigherThan (release 0 0 0)))] [Package wisp x [] HexSource]))
       (LocalPackages [(wisp, x)] []) [(wisp, OfHex x)]).
  split; [apply finds_honest; cbn; constructor; [intros []|constructor]|]. split.
  { exists x. split; auto. unfold legal_version, x. cbn [major minor patch pre build]. repeat split; try lia; try constructor; try discriminate; repeat constructor. }
  split; [discriminate|]. split; [reflexivity|]. split; reflexivity.
Qed.
Print Assumptions C98_what_is_written_can_be_read_refuted.

Definition unmarked (x : version) : Prop := legal_version x /\ build x = None /\ (major x + 1 < 2 ^ 32)%N.
Lemma range_of_spec x : unmarked x -> exists r, parse_range (range_of x) = Ok r /\ forall y, contains r y = true <-> compatible x y.
Proof.
  intros (L & B & M). unfold range_of. rewrite version_to_string_show. unfold u32_succ. rewrite N.mod_small by lia.
  destruct (between x (release (major x + 1) 0 0)) as (r & R & C); [now split|apply release_plain; lia|].
  rewrite show_release in R. exists r. split; auto.
Qed.

Lemma read_all l : (forall n y, In (n, y) l -> read_entry y <> None) -> read_entries l <> None.
Proof.
  induction l as [|[n y] l IH]; cbn; intros H; [discriminate|]. destruct (read_entry y) eqn:E; [|elim (H n y); auto].
  destruct (read_entries l); [discriminate|]. apply IH. intros k z I. apply (H k z). auto.
Qed.
Lemma changed_read ps names l l' : changed_to ps names l l' -> (forall q, In q ps -> In (name q) names -> unmarked (at_version q)) ->
  (forall n y, In (n, y) l -> read_entry y <> None) -> read_entries l' <> None.
Proof.
  intros C U R. apply read_all. intros n y I. apply C in I as [(I & q & F & ->)|[_ I]]; [|eauto].
  assert (Q : In q ps /\ name q = n). { destruct F as (a & b & -> & N & _). split; auto. apply in_app_iff. right. now left. }
  destruct Q as [Q <-]. destruct (range_of_spec (at_version q) (U q Q I)) as (r & R' & _). unfold range_of in R'. rewrite version_to_string_show in R'.
  cbn [read_entry]. unfold hex. rewrite R'. discriminate.
Qed.

(** The range of what is found allows it, and what is compatible with it, but nothing else. *)
Theorem C98_what_is_written_can_be_read_partial : forall e specs dev g w g' m' w',
  command e specs dev g w = inl (g', m', w') ->
  (forall asked locks out ps q, solve e asked locks = (out, Some ps) -> In q ps -> unmarked (at_version q)) ->
  (forall d, disc w = Some d -> (forall q, In q (packages d) -> unmarked (at_version q))
     /\ forall n spec r, In (n, Hex spec r) (manifest_requirements d) -> parse_range spec = Ok r) ->
  exists c' m'', read_config g' = Some c' /\ read_manifest m' = Some m''
  /\ forall s n, In s specs -> named s n -> exists spec r x,
       In (n, Hex spec r) ((if dev then dev_dependencies else dependencies) c') /\ In (n, Hex spec r) (manifest_requirements m'')
       /\ compatible x x /\ forall y, contains r y = true <-> compatible x y.
Proof.
  intros e specs dev g w g' m' w' E UE UD.
  apply command_parts in E as (c & l & m & d & RC & _ & PA & R & D & I).
  apply insert_new_spec in I as (_ & OT & CT & CR & _ & FN).
  assert (RD : forall n spec r, In (n, Hex spec r) (manifest_requirements d) -> parse_range spec = Ok r).
  { assert (RN : forall n spec r, declared (with_new (Some (l, dev)) c) n (Hex spec r) -> parse_range spec = Ok r).
    { intros n spec r X. apply with_new_from in X as [X|X].
      - unfold read_config in RC. destruct (read_entries (toml_dependencies g)) as [l1|] eqn:L1; [|discriminate].
        destruct (read_entries (toml_dev_dependencies g)) as [l2|] eqn:L2; [|discriminate]. injection RC as <-.
        apply read_entries_in in L1 as (_ & L1 & _). apply read_entries_in in L2 as (_ & L2 & _).
        destruct X as [X|X]; cbn in X; [apply L1 in X|apply L2 in X]; destruct X as (y & _ & Y); destruct y; try discriminate;
          cbn in Y; unfold hex in Y; destruct (parse_range spec0) eqn:P; try discriminate; injection Y as <- <-; auto.
      - apply parse_all_named in PA as [_ PA]. clear - X PA. induction PA as [|s q specs l P PA IH]; [destruct X|].
        destruct X as [->|X]; auto. apply specifier_shape in P as ((s1 & r1 & Q & P) & _). now injection Q as -> ->. }
    apply download_source in R as [[X|X] Y].
    - rewrite D in X. injection X as <-. destruct Y as [Y|[_ Y]]; [now apply UD in Y as [_ Y]|].
      intros n spec r I. apply (RN n). now apply (direct_in _ _ _ _ Y).
    - rewrite D in X. symmetry in X. now apply UD in X as [_ X]. }
  assert (PM : forall q, In q (packages m) -> unmarked (at_version q)).
  { apply download_source in R as [_ [Y|[(a & k & o & Y) _]]]; [now apply UD in Y as [Y _]|]. intros q Q. eapply UE; eauto. }
  assert (TG : read_config g' <> None).
  { unfold read_config in *. destruct (read_entries (toml_dependencies g)) as [l1|] eqn:L1; [|discriminate].
    destruct (read_entries (toml_dev_dependencies g)) as [l2|] eqn:L2; [|discriminate].
    apply read_entries_in in L1 as (_ & _ & L1'). pose proof L2 as L2'. apply read_entries_in in L2' as (_ & _ & L2').
    assert (A1 : forall n y, In (n, y) (toml_dependencies g) -> read_entry y <> None) by (intros n y J; destruct (L1' n y J); congruence).
    assert (A2 : forall n y, In (n, y) (toml_dev_dependencies g) -> read_entry y <> None) by (intros n y J; destruct (L2' n y J); congruence).
    assert (B1 : read_entries (toml_dependencies g') <> None /\ read_entries (toml_dev_dependencies g') <> None).
    { destruct dev; cbn [negb table] in OT, CT.
      - rewrite OT. split; [now apply read_all|]. eapply changed_read; eauto.
      - rewrite OT. split; [eapply changed_read; eauto|now apply read_all]. }
    destruct B1. destruct (read_entries (toml_dependencies g')), (read_entries (toml_dev_dependencies g')); congruence. }
  assert (TM : read_manifest m' <> None).
  { unfold read_manifest. assert (X : read_entries (toml_requirements m') <> None); [|destruct (read_entries (toml_requirements m')); congruence].
    eapply changed_read; eauto. cbn [written_manifest toml_requirements]. intros n y J. apply in_map_iff in J as ([k r] & J & K). injection J as -> <-.
    destruct r as [s a| |]; cbn [written read_entry]; try discriminate. apply RD in K. unfold hex. rewrite K. discriminate. }
  destruct (read_config g') as [c'|] eqn:C'; [|congruence]. destruct (read_manifest m') as [m''|] eqn:M'; [|congruence].
  exists c', m''. split; auto. split; auto. intros s n S N.
  assert (IN : In n (map fst l)).
  { apply parse_all_named in PA as [PA _]. clear - PA S N. induction PA as [|s0 k specs ks P PA IH]; [destruct S|].
    destruct S as [->|S]; [left; now apply (named_unique s)|right; auto]. }
  destruct (FN n IN) as (q & Q).
  assert (QI : In q (packages m)). { destruct Q as (a & b & -> & _). apply in_app_iff. right. now left. }
  destruct (range_of_spec (at_version q) (PM q QI)) as (r & PR & CO).
  set (spec := str ">= " ++ show (at_version q) ++ str " and < " ++ decimal (u32_succ (major (at_version q))) ++ str ".0.0").
  assert (ER : range_of (at_version q) = spec) by (unfold range_of; now rewrite version_to_string_show).
  rewrite ER in PR. exists spec, r, (at_version q).
  assert (RE : read_entry (Range spec) = Some (Hex spec r)) by (cbn [read_entry]; unfold hex; now rewrite PR).
  assert (I1 : In (n, Range spec) (table dev g')) by (apply CT; left; split; auto; exists q; auto).
  assert (I2 : In (n, Range spec) (toml_requirements m')) by (apply CR; left; split; auto; exists q; auto).
  split; [|split; [|split; auto]].
  - unfold read_config in C'. destruct (read_entries (toml_dependencies g')) as [l1|] eqn:L1; [|discriminate].
    destruct (read_entries (toml_dev_dependencies g')) as [l2|] eqn:L2; [|discriminate]. injection C' as <-.
    apply read_entries_in in L1 as (_ & L1 & _). apply read_entries_in in L2 as (_ & L2 & _).
    destruct dev; cbn [dependencies dev_dependencies table] in *; [apply L2|apply L1]; eauto.
  - unfold read_manifest in M'. destruct (read_entries (toml_requirements m')) as [l1|] eqn:L1; [|discriminate]. injection M' as <-.
    apply read_entries_in in L1 as (_ & L1 & _). apply L1. eauto.
  - split; [apply precedes_irrefl|]. apply by_major. cbn. lia.
Qed.
Print Assumptions C98_what_is_written_can_be_read_partial.

Example C98_example :
  let range := str ">= 1.2.3 and < 2.0.0" in let x := release 1 2 3 in
  exists w', command (found x) [str "wisp@1"] true (GleamToml app [] []) (World None nothing [])
    = inl (GleamToml app [] [(wisp, Range range)], ManifestToml [(wisp, Range range)] [Package wisp x [] HexSource], w')
  /\ unmarked x /\ read_config (GleamToml app [] [(wisp, Range range)]) <> None
  /\ exists r, parse_range range = Ok r /\ map (contains r) [release 1 2 2; release 1 2 3; release 1 9 0; release 2 0 0] = [false; true; true; false].
Proof.
  intros range x. eexists. split; [vm_compute; reflexivity|]. split; [|split; [discriminate|eexists; split; reflexivity]].
  unfold unmarked, legal_version, x. cbn. repeat split; auto; lia.
Qed.

(** ** C99: only what is asked for changes in the two files, and they then agree. *)

(** In the table that is chosen and among the requirements of the manifest the packages that are named get the range of the
    version that was found; nothing else changes. *)
Theorem C99_what_adding_changes : forall e specs dev g w g' m' w', command e specs dev g w = inl (g', m', w') ->
  exists names requirements c m on_disc, Forall2 named specs names
  /\ Forall2 (fun s r => parse_gleam_add_specifier s = inl r) specs requirements /\ names = map fst requirements
  /\ read_config g = Some c /\ resolve_and_download_versions e UseYes Dev c (Some (requirements, dev)) [] w = (w', Some m)
  /\ (forall n, In n names -> exists q, first_named (packages m) n q)
  /\ toml_name g' = toml_name g
  /\ (dev = true -> toml_dependencies g' = toml_dependencies g
      /\ changed_to (packages m) names (toml_dev_dependencies g) (toml_dev_dependencies g'))
  /\ (dev = false -> toml_dev_dependencies g' = toml_dev_dependencies g
      /\ changed_to (packages m) names (toml_dependencies g) (toml_dependencies g'))
  /\ disc w' = Some on_disc /\ toml_packages m' = packages on_disc
  /\ changed_to (packages m) names (map (fun '(n, r) => (n, written r)) (manifest_requirements on_disc)) (toml_requirements m').
Proof.
  intros e specs dev g w g' m' w' E. apply command_parts in E as (c & l & m & d & RC & _ & PA & R & D & I).
  apply insert_new_spec in I as (NA & OT & CT & CR & PK & FN). apply parse_all_named in PA as [PN PA].
  exists (map fst l), l, c, m, d. repeat (split; [assumption || reflexivity|]).
  split; [intros ->; split; auto|]. split; [intros ->; split; auto|]. auto.
Qed.
Print Assumptions C99_what_adding_changes.

(** The files that are there then ask for the same: nothing is to be resolved when they are read the next time. *)
Theorem C99_the_files_agree : forall e specs dev g w g' m' w' c' m'',
  command e specs dev g w = inl (g', m', w') -> honest e -> names_once g ->
  (forall d, disc w = Some d -> unique d /\ NoDup (map fst (manifest_requirements d))) ->
  read_config g' = Some c' -> read_manifest m' = Some m'' -> agree (canonical e) c' m''.
Proof.
  intros e specs dev g w g' m' w' c' m'' E HO [N1 N2] UD RC' RM'.
  apply command_parts in E as (c & l & m & d & RC & _ & PA & R & D & I). clear PA.
  apply insert_new_spec in I as (_ & OT & CT & CR & _ & FN).
  assert (RG : forall n r, (In (n, r) (dependencies c) <-> exists x, In (n, x) (toml_dependencies g) /\ read_entry x = Some r)
    /\ (In (n, r) (dev_dependencies c) <-> exists x, In (n, x) (toml_dev_dependencies g) /\ read_entry x = Some r)).
  { unfold read_config in RC. destruct (read_entries (toml_dependencies g)) as [l1|] eqn:L1; [|discriminate].
    destruct (read_entries (toml_dev_dependencies g)) as [l2|] eqn:L2; [|discriminate]. injection RC as <-.
    apply read_entries_in in L1 as (_ & L1 & _). apply read_entries_in in L2 as (_ & L2 & _). cbn. intros n r. split; auto. }
  assert (TC : tables c).
  { unfold read_config in RC. destruct (read_entries (toml_dependencies g)) as [l1|] eqn:L1; [|discriminate].
    destruct (read_entries (toml_dev_dependencies g)) as [l2|] eqn:L2; [|discriminate]. injection RC as <-.
    apply read_entries_in in L1 as (L1 & _). apply read_entries_in in L2 as (L2 & _). split; cbn; congruence. }
  assert (RG' : forall n r, (In (n, r) (dependencies c') <-> exists x, In (n, x) (toml_dependencies g') /\ read_entry x = Some r)
    /\ (In (n, r) (dev_dependencies c') <-> exists x, In (n, x) (toml_dev_dependencies g') /\ read_entry x = Some r)).
  { unfold read_config in RC'. destruct (read_entries (toml_dependencies g')) as [l1|] eqn:L1; [|discriminate].
    destruct (read_entries (toml_dev_dependencies g')) as [l2|] eqn:L2; [|discriminate]. injection RC' as <-.
    apply read_entries_in in L1 as (_ & L1 & _). apply read_entries_in in L2 as (_ & L2 & _). cbn. intros n r. split; auto. }
  assert (RM : (forall n r, In (n, r) (manifest_requirements m'') <-> exists x, In (n, x) (toml_requirements m') /\ read_entry x = Some r)
    /\ forall n x, In (n, x) (toml_requirements m') -> exists r, read_entry x = Some r).
  { unfold read_manifest in RM'. destruct (read_entries (toml_requirements m')) as [l1|] eqn:L1; [|discriminate]. injection RM' as <-.
    apply read_entries_in in L1 as (_ & L1 & L1'). split; auto. }
  destruct RM as [RM RT].
  pose proof (with_new_tables l dev c TC) as TW.
  (* what the manifest asks for *)
  assert (AM : (~ exists n, In n (map fst (dependencies (with_new (Some (l, dev)) c))) /\ In n (map fst (dev_dependencies (with_new (Some (l, dev)) c))))
    /\ (forall n q, declared (with_new (Some (l, dev)) c) n q -> exists q', In (n, q') (manifest_requirements d) /\ same_place (canonical e) q' q)
    /\ (forall n q', In (n, q') (manifest_requirements d) -> exists q, declared (with_new (Some (l, dev)) c) n q /\ same_place (canonical e) q' q)).
  { pose proof (C89_the_manifest_on_disc_is_the_resolved_one_partial e UseYes Dev c (Some (l, dev)) [] w w' m HO UD R) as DM.
    unfold resolve_and_download_versions in R. destruct (resolve_versions _ _ _ _ _ _) as [d1 [r|]] eqn:RV; [|discriminate].
    destruct (add_missing_packages _ _ _ _ _) as [d2 [|]]; [|discriminate]. injection R as <- <-.
    apply resolved_requirements in RV as (ND & A & B); auto; [|intros m0 X; now apply UD in X].
    split; auto. destruct DM as [DM|(d0 & _ & D0 & _ & S1 & S2)].
    - rewrite D in DM. injection DM as ->. auto.
    - rewrite D in D0. injection D0 as <-. split.
      + intros n q Q. apply A in Q as (q1 & Q1 & P1). apply S2 in Q1 as (q2 & Q2 & P2). exists q2. split; auto. eapply place_trans; eauto.
      + intros n q Q. apply S1 in Q as (q1 & Q1 & P1). apply B in Q1 as (q2 & Q2 & P2). exists q2. split; auto. eapply place_trans; eauto. }
  destruct AM as (ND & A & B).
  assert (OLD : forall n r, ~ In n (map fst l) -> (declared c' n r <-> declared c n r)).
  { intros n r N. unfold declared. destruct (RG n r) as [-> ->]. destruct (RG' n r) as [-> ->].
    assert (CH : forall x, In (n, x) (table dev g') <-> In (n, x) (table dev g)).
    { intros x. rewrite (CT n x). split; [intros [[X _]|[_ X]]; tauto|auto]. }
    destruct dev; cbn [table negb] in *; rewrite OT; split; (intros [(x & X & Y)|(x & X & Y)]; [left|right]; exists x; split; auto; now apply CH). }
  assert (KEY : forall n, In n (map fst l) -> ~ In n (map fst (table (negb dev) g'))).
  { intros n I X. apply ND. exists n. rewrite OT in X. destruct (with_new_keys l dev c n) as (K1 & K2 & K3).
    assert (KT : map fst (toml_dependencies g) = map fst (dependencies c) /\ map fst (toml_dev_dependencies g) = map fst (dev_dependencies c)).
    { unfold read_config in RC. destruct (read_entries (toml_dependencies g)) as [l1|] eqn:L1; [|discriminate].
      destruct (read_entries (toml_dev_dependencies g)) as [l2|] eqn:L2; [|discriminate]. injection RC as <-.
      apply read_entries_in in L1 as (L1 & _). apply read_entries_in in L2 as (L2 & _). auto. }
    destruct KT as [KT1 KT2]. destruct dev; cbn [negb table] in X; [rewrite KT1 in X|rewrite KT2 in X]; split; auto. }
  assert (NEW : forall n r, In n (map fst l) -> (declared c' n r <-> In (n, r) (manifest_requirements m''))).
  { intros n r I. rewrite (RM n r). unfold declared. destruct (RG' n r) as [-> ->]. specialize (KEY n I).
    assert (CH : forall x, In (n, x) (table dev g') <-> In (n, x) (toml_requirements m')).
    { intros x. rewrite (CT n x), (CR n x). tauto. }
    assert (NO : forall x, ~ In (n, x) (table (negb dev) g')) by (intros x X; apply (in_map fst) in X; auto).
    destruct dev; cbn [table negb] in *.
    - split; [intros [(x & X & Y)|(x & X & Y)]; [now elim (NO x)|]|intros (x & X & Y); right]; exists x; split; auto; now apply CH.
    - split; [intros [(x & X & Y)|(x & X & Y)]; [|now elim (NO x)]|intros (x & X & Y); left]; exists x; split; auto; now apply CH. }
  assert (REQ : forall n x, ~ In n (map fst l) -> (In (n, x) (toml_requirements m') <-> exists q, In (n, q) (manifest_requirements d) /\ x = written q)).
  { intros n x N. rewrite (CR n x). cbn [written_manifest toml_requirements]. split.
    - intros [[X _]|[_ X]]; [tauto|]. apply in_map_iff in X as ([k q] & X & Y). injection X as -> <-. eauto.
    - intros (q & Q & ->). right. split; auto. apply in_map_iff. exists (n, q). auto. }
  split.
  - intros n r Q. destruct (in_dec text_eq_dec n (map fst l)) as [I|N].
    + exists r. split; [now apply NEW|apply place_refl].
    + apply OLD in Q; auto.
      assert (Q' : declared (with_new (Some (l, dev)) c) n r).
      { unfold declared in *. destruct (with_new_in l dev c n r N) as [-> ->]. auto. }
      apply A in Q' as (q1 & Q1 & P1).
      assert (X : In (n, written q1) (toml_requirements m')) by (apply REQ; eauto).
      destruct (RT n _ X) as (r' & Y). exists r'. split; [apply RM; eauto|].
      eapply place_trans; [|exact P1]. apply place_sym. now apply written_read.
  - intros n r' Q. destruct (in_dec text_eq_dec n (map fst l)) as [I|N].
    + exists r'. split; [now apply NEW|apply place_refl].
    + apply RM in Q as (x & X & Y). apply REQ in X as (q1 & Q1 & ->); auto. apply B in Q1 as (q2 & Q2 & P2).
      exists q2. split.
      * apply OLD; auto. unfold declared in *. destruct (with_new_in l dev c n q2 N) as [W1 W2]. rewrite W1, W2 in Q2. auto.
      * eapply place_trans; [|exact P2]. apply place_sym. now apply written_read.
Qed.
Print Assumptions C99_the_files_agree.

(** A project with a dependency, to which another is added: what was there keeps its range, and the next command resolves nothing. *)
Example C99_example :
  let g := GleamToml app [(a, Range (str ">= 1.0.0"))] [] in
  let e := finds [Package a (release 1 4 0) [] HexSource; Package wisp (release 2 1 0) [] HexSource] all_well in
  let g' := GleamToml app [(wisp, Range (str ">= 2.1.0 and < 3.0.0")); (a, Range (str ">= 1.0.0"))] [] in
  let m' := ManifestToml [(wisp, Range (str ">= 2.1.0 and < 3.0.0")); (a, Range (str ">= 1.0.0"))]
    [Package a (release 1 4 0) [] HexSource; Package wisp (release 2 1 0) [] HexSource] in
  (exists w', command e [wisp] false g (World None nothing []) = inl (g', m', w'))
  /\ names_once g
  /\ exists c m, read_config g' = Some c /\ read_manifest m' = Some m
     /\ exists w' m2, resolve_and_download_versions (Environment 10 Some (Some true) (fun _ _ => ([], None)) all_well) UseYes Dev c None []
          (World (Some m) nothing []) = (w', Some m2) /\ m2 = m.
Proof.
  cbn zeta. split; [eexists; vm_compute; reflexivity|]. split; [repeat constructor; cbn; intuition discriminate|].
  eexists. eexists. split; [vm_compute; reflexivity|]. split; [vm_compute; reflexivity|]. eexists. eexists. split; vm_compute; reflexivity.
Qed.

(** ** C100: a project is not added to itself. *)

(** Solvers leave out the project itself; so does the manifest on disc. *)
Definition without_root (root : text) (e : environment) (w : world) : Prop :=
  (forall asked locks out ps, solve e asked locks = (out, Some ps) -> ~ In root (map name ps))
  /\ forall d, disc w = Some d -> ~ In root (map name (packages d)).

(** With a version it is not noticed, and the command panics as it does not find the package. *)
Theorem C100_adding_the_project_itself_is_an_error_of_its_own_refuted :
  exists e specs dev g w, read_config g <> None /\ honest e /\ without_root (toml_name g) e w /\ (exists s, In s specs /\ named s (toml_name g))
    /\ command e specs dev g w = inr NotFound.
Proof.
  exists (finds [] all_well), [str "app@0"], false, (GleamToml app [] []), (World None nothing []).
  split; [discriminate|]. split; [apply finds_honest; constructor|]. split.
  { split; [intros ? ? ? ps E; injection E as _ <-; auto|discriminate]. }
  split; [|reflexivity]. exists (str "app@0"). split; [now left|]. split; [cbn; intuition discriminate|]. right. exists (str "0"). reflexivity.
Qed.
Print Assumptions C100_adding_the_project_itself_is_an_error_of_its_own_refuted.

Theorem C100_adding_the_project_itself_is_an_error_of_its_own_partial : forall e specs dev g w,
  read_config g <> None -> In (toml_name g) specs -> command e specs dev g w = inr CannotAddSelfAsDependency.
Proof.
  intros e specs dev g w RC I. unfold command. destruct (read_config g) as [c|] eqn:C; [|congruence].
  assert (N : config_name c = toml_name g).
  { unfold read_config in C. destruct (read_entries _); [|discriminate]. destruct (read_entries _); [|discriminate]. now injection C as <-. }
  assert (X : existsb (fun s => text_eqb s (config_name c)) specs = true); [|now rewrite X].
  apply existsb_exists. exists (toml_name g). rewrite N. split; auto. apply text_eqb_refl.
Qed.
Print Assumptions C100_adding_the_project_itself_is_an_error_of_its_own_partial.

(** But it is never added, and it is said to be the project only if it is. *)
Theorem C100_the_project_is_not_added : forall e specs dev g w,
  (forall r, without_root (toml_name g) e w -> command e specs dev g w = inl r -> ~ exists s, In s specs /\ named s (toml_name g))
  /\ (command e specs dev g w = inr CannotAddSelfAsDependency -> In (toml_name g) specs).
Proof.
  intros e specs dev g w. split.
  - intros [[g' m'] w'] [WS WD] E (s & S & N). apply command_parts in E as (c & l & m & d & _ & _ & PA & R & _ & I).
    apply insert_new_spec in I as (_ & _ & _ & _ & _ & FN).
    assert (IN : In (toml_name g) (map fst l)).
    { apply parse_all_named in PA as [PA _]. clear - PA S N. induction PA as [|s0 k specs ks P PA IH]; [destruct S|].
      destruct S as [->|S]; [left; now apply (named_unique s)|right; auto]. }
    apply FN in IN as (q & (x & y & Q & QN & _)).
    assert (J : In (toml_name g) (map name (packages m))). { rewrite <- QN, Q. apply in_map, in_app_iff. right. now left. }
    apply download_source in R as [_ [R|[(? & ? & ? & R) _]]]; [now apply WD in R|now apply WS in R].
  - unfold command. destruct (read_config g) as [c|] eqn:C; [|discriminate].
    assert (N : config_name c = toml_name g).
    { unfold read_config in C. destruct (read_entries _); [|discriminate]. destruct (read_entries _); [|discriminate]. now injection C as <-. }
    destruct (existsb _ specs) eqn:X.
    + intros _. apply existsb_exists in X as (s & S & E). apply text_eqb_eq in E. congruence.
    + destruct (parse_all specs) as [l|err] eqn:P.
      * destruct (resolve_and_download_versions _ _ _ _ _ _ _) as [w1 [m|]]; [|discriminate].
        destruct (disc w1) as [d|]; [|discriminate].
        destruct (insert_new _ _ _ _ _) as [[g1 m1]|err] eqn:I; [discriminate|]. intros E. injection E as ->. exfalso. clear - I.
        revert I. generalize (written_manifest d). revert g. induction l as [|[n r] l IH]; intros g m0; cbn [insert_new]; [discriminate|].
        destruct (find _ _); [apply IH|discriminate].
      * intros E. injection E as ->. exfalso. clear - P. revert P. induction specs as [|s specs IH]; cbn [parse_all]; [discriminate|].
        destruct (parse_gleam_add_specifier s) as [q|err] eqn:S.
        -- destruct (parse_all specs); [discriminate|]. exact IH.
        -- intros E. injection E as ->. unfold parse_gleam_add_specifier, hex in S.
           destruct (split_once 64 s) as [[x y]|]; [|destruct (parse_range _); discriminate].
           destruct (parse_usize _); [|discriminate].
           destruct (split 46 y) as [|p1 [|p2 [|p3 [|p4 ps]]]]; try discriminate; destruct (parse_range _); discriminate.
Qed.
Print Assumptions C100_the_project_is_not_added.

Example C100_example :
  command (found (release 1 0 0)) [wisp; app] false (GleamToml app [] []) (World None nothing []) = inr CannotAddSelfAsDependency
  /\ without_root app (found (release 1 0 0)) (World None nothing [])
  /\ named (str "app@1.2") app /\ ~ In app [str "app@1.2"].
Proof.
  split; [reflexivity|]. split.
  { split; [intros ? ? ? ps E; injection E as _ <-; cbn; intuition discriminate|discriminate]. }
  split; [split; [cbn; intuition discriminate|right; exists (str "1.2"); reflexivity]|]. cbn. intuition discriminate.
Qed.
