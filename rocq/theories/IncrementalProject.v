(** A whole build. *)
From Coq Require Import NArith Arith Bool List Permutation Lia.
From Verif Require Import Text TextProofs DepTree DepTreeSpec DepTreeProofs Incremental IncrementalSpec
  IncrementalProofs IncrementalRun IncrementalSim IncrementalPackage IncrementalAnalysis.
Import ListNotations.
Local Open Scope list_scope.
Local Open Scope nat_scope.

(** ** The disk *)
Lemma apply_ops_app d a b : apply_ops d (a ++ b) = apply_ops (apply_ops d a) b.
Proof. apply fold_left_app. Qed.
Lemma apply_in_package p os : forall d q,
  apply_ops d (in_package p os) q = if text_eqb p q then applied (d q) os else d q.
Proof.
  unfold apply_ops, in_package, applied. induction os as [|o os IH]; intros d q; cbn.
  - now destruct (text_eqb p q).
  - rewrite IH. unfold apply_op. cbn. now destruct (text_eqb p q).
Qed.
Lemma nth_lt {A} (l : list A) n x : nth_error l n = Some x -> n < length l.
Proof. intros H. apply nth_error_Some. now rewrite H. Qed.
Lemma names_nth (ps : list package) j k p fs gs : NoDup (map fst ps) ->
  nth_error ps j = Some (p, fs) -> nth_error ps k = Some (p, gs) -> j = k.
Proof.
  intros ND J K. rewrite NoDup_nth_error in ND. apply ND.
  - rewrite map_length. exact (nth_lt _ _ _ J).
  - rewrite (map_nth_error fst _ _ J), (map_nth_error fst _ _ K). reflexivity.
Qed.

Section Project.
Variables (w : world) (c : codegen) (d : disk) (ps : list package).
Hypothesis names : NoDup (map fst ps).

(** What is imported is stored, by this package or one before. *)
Definition live (d' : disk) (k : nat) (ds : list (text * artefact)) : Prop :=
  forall n b, In (n, b) ds -> exists j q fs, j <= k /\ nth_error ps j = Some (q, fs)
    /\ (exists m, recorded (d' q) n m) /\ get n (caches (d' q)) = Some b.
Definition required (k : nat) : bool := should_codegen c (S k =? length ps).

(** The usable caches are good. *)
Hypothesis good : forall k p fs f, nth_error ps k = Some (p, fs) -> In f fs ->
  usable w (required k) false [] (d p) f ->
  exists m ds, recorded (d p) (f_name f) m /\ m_imports m = map fst ds
    /\ parse w (c_text (f_content f)) = Some (map fst ds)
    /\ get (f_name f) (caches (d p)) = Some (Compiled (f_name f) (f_content f) ds)
    /\ judge w (Compiled (f_name f) (f_content f) ds) = Fine /\ standard w (f_name f) = false
    /\ live d k ds.

(** Everything is stored as it was compiled. *)
Definition fresh (d' : disk) (k : nat) (p : text) (fs : list file) : Prop :=
  NoDup (map f_name fs)
  /\ forall n m, recorded (d' p) n m -> exists f ds, In f fs /\ f_name f = n
     /\ parse w (c_text (f_content f)) = Some (map fst ds) /\ m_imports m = map fst ds
     /\ get n (caches (d' p)) = Some (Compiled n (f_content f) ds)
     /\ judge w (Compiled n (f_content f) ds) = Fine /\ standard w n = false
     /\ live d' k ds
     /\ ((m_mtime m = f_mtime f /\ m_fingerprint m = fingerprint w (c_text (f_content f)))
         \/ (recorded (d p) n m /\ get n (caches (d p)) = Some (Compiled n (f_content f) ds))).
(** What is stored was stored before. *)
Definition kept (d' : disk) (k : nat) (p : text) (fs : list file) : Prop :=
  NoDup (map f_name fs)
  /\ forall n m, recorded (d' p) n m -> recorded (d p) n m /\ get n (caches (d' p)) = get n (caches (d p))
     /\ exists f, In f fs /\ f_name f = n
        /\ (~ usable w (required k) false [] (d p) f
            \/ (usable w (required k) false [] (d p) f
                /\ forall c ds, get n (caches (d p)) = Some (Compiled n c ds) -> live d' k ds)).

(** Packages [pre] have been compiled. *)
Record done (pre : list package) (x : memory) (d' : disk) : Prop := {
  done_defined : forall n a, get n (importable x) = Some a -> In n (defined_modules x);
  done_current : forall n a, get n (importable x) = Some a ->
    artefact_name a = n /\ exists j, j < length pre /\ current w ps j a;
  done_stored : forall n a, get n (importable x) = Some a ->
    exists j q fs, j < length pre /\ nth_error ps j = Some (q, fs)
      /\ (exists m, recorded (d' q) n m) /\ get n (caches (d' q)) = Some a;
  done_old : forall j q fs n m a, j < length pre -> nth_error ps j = Some (q, fs) ->
    recorded (d q) n m -> get n (caches (d q)) = Some a -> ~ In n (stale_modules x) -> get n (importable x) = Some a;
  done_fresh : forall j q fs, j < length pre -> nth_error ps j = Some (q, fs) -> fresh d' j q fs;
  done_rest : forall j q fs, length pre <= j -> nth_error ps j = Some (q, fs) -> d' q = d q }.

Lemma done_trusted (pre : list package) x d' p fs (rest : list package) : ps = pre ++ (p, fs) :: rest -> done pre x d' ->
  trusted w (required (length pre)) (incomplete_modules x) (d p) (stale_modules x) (importable x) fs.
Proof.
  intros E D f If U.
  assert (NE : nth_error ps (length pre) = Some (p, fs)) by (rewrite E, nth_error_app2, PeanoNat.Nat.sub_diag; auto).
  rewrite (usable_inc _ _ _ []) in U.
  destruct (good _ _ _ _ NE If U) as (m & ds & Rm & Em & Pf & Gc & Jf & St & L).
  exists m, ds. repeat (split; [assumption|]). intros n b I.
  destruct (L n b I) as (j & q & gs & Lj & NJ & (m' & Rm') & G).
  destruct (PeanoNat.Nat.eq_dec j (length pre)) as [->|Nj].
  - rewrite NE in NJ. injection NJ as <- <-. right. right. eauto.
  - destruct (member n (stale_modules x)) eqn:S; [left; now apply member_true|right; left].
    apply member_false in S. eapply (done_old _ _ _ D j q gs); eauto. lia.
Qed.

Lemma done_step (pre : list package) x d' p fs (rest : list package) ms : ps = pre ++ (p, fs) :: rest -> done pre x d' ->
  let r := compile_package w (required (length pre)) false (d p) x fs in
  p_result r = inl ms ->
  done (pre ++ [(p, fs)]) (p_memory r) (apply_ops d' (in_package p (p_ops r))).
Proof.
  intros E D r R.
  assert (NE : nth_error ps (length pre) = Some (p, fs)) by (rewrite E, nth_error_app2, PeanoNat.Nat.sub_diag; auto).
  pose proof (done_trusted _ _ _ _ _ _ E D) as T.
  pose proof (package_sim w (required (length pre)) (incomplete_modules x) (d p) (defined_modules x) (stale_modules x)
                (importable x) fs true [] [] T (done_defined _ _ _ D)) as SIM. cbv zeta in SIM.
  destruct (package_success w _ (d p) x fs T (done_defined _ _ _ D) ms R) as (S1 & S2 & S3 & S4 & S5 & S6 & S7 & S8).
  fold r in S1, S2, S3, S4, S5, S6, S7, S8.
  assert (DP : d' p = d p) by (eapply (done_rest _ _ _ D (length pre)); eauto).
  set (d2 := apply_ops d' (in_package p (p_ops r))).
  assert (D2p : d2 p = applied (d p) (p_ops r)).
  { unfold d2. rewrite apply_in_package, eqb_same. now rewrite DP. }
  assert (D2q : forall j q gs, j <> length pre -> nth_error ps j = Some (q, gs) -> d2 q = d' q).
  { intros j q gs Nj NJ. unfold d2. rewrite apply_in_package. destruct (text_eqb p q) eqn:Q; auto.
    apply eqb_true in Q. subst q. destruct Nj. eapply names_nth; eauto. }
  assert (LEN : length (pre ++ [(p, fs)]) = S (length pre)) by (rewrite app_length; cbn; lia).
  assert (STORED : forall n a, get n (importable (p_memory r)) = Some a ->
    exists j q gs, j < S (length pre) /\ nth_error ps j = Some (q, gs)
      /\ (exists m, recorded (d2 q) n m) /\ get n (caches (d2 q)) = Some a).
  { intros n a G. destruct (member n (map f_name fs)) eqn:M.
    - apply member_true in M. destruct (S5 n M) as (m & b & Rm & Gc & Ge).
      exists (length pre), p, fs. split; [lia|]. split; [exact NE|]. rewrite D2p. split; [eauto|]. congruence.
    - apply member_false in M. rewrite S4 in G by exact M.
      destruct (done_stored _ _ _ D n a G) as (j & q & gs & Lj & NJ & K). exists j, q, gs.
      split; [lia|]. split; [exact NJ|]. rewrite (D2q j q gs); auto. lia. }
  constructor; rewrite ?LEN.
  - intros n a G. apply S3. destruct (member n (map f_name fs)) eqn:M.
    + right. now apply member_true.
    + apply member_false in M. rewrite S4 in G by exact M. left. eapply done_defined; eauto.
  - (* compare with a build without caches *)
    unfold r, compile_package in R |- *.
    destruct (l_loaded (run w (required (length pre)) false (incomplete_modules x) (d p) (defined_modules x) (stale_modules x) fs)) as [ld|e] eqn:L; rewrite ?L in R; [|discriminate R].
    fold (with_cached (importable x) (from_cache ld)) in *.
    destruct SIM as (us & _ & _ & US & SIM). destruct (SIM (importable x) (fun _ => eq_refl)) as ([A1 A2] & A3 & A4).
    destruct (a_failed (analyse w (with_cached (importable x) (from_cache ld)) (incomplete_modules x) (to_compile ld))) as [|] eqn:FY; rewrite ?FY in R; [|discriminate R].
    destruct (required (length pre) && _) eqn:GN; rewrite ?GN in R; [discriminate R|]. cbn [p_memory importable].
    intros n a G. rewrite A3 in G.
    pose proof (analyse_current w ps (length pre) p fs us NE
      {| a_env := importable x; a_incomplete := []; a_modules := []; a_failed := []; a_skipped := [] |} US) as CUR.
    destruct CUR as [CUR _].
    + split; cbn; [|easy]. intros m b Gm _. destruct (done_current _ _ _ D m b Gm) as (C1 & j & Lj & C2). split; auto.
      exists j. split; [lia|exact C2].
    + destruct (CUR n a) as (C1 & j & Lj & C2); auto.
      * fold (analyse w (importable x) [] us). now rewrite A1.
      * split; auto. exists j. split; [lia|exact C2].
  - exact STORED.
  - intros j q gs n m a Lj NJ Rm G NS. destruct (PeanoNat.Nat.eq_dec j (length pre)) as [->|Nj].
    + rewrite NE in NJ. injection NJ as <- <-. eapply S8; eauto.
    + assert (Gx : get n (importable x) = Some a).
      { eapply (done_old _ _ _ D j q gs n m a); eauto. lia. }
      rewrite S4; auto. intros I. apply in_map_iff in I. destruct I as (f & <- & If).
      apply (S2 f If). eapply done_defined; eauto.
  - intros j q gs Lj NJ. destruct (PeanoNat.Nat.eq_dec j (length pre)) as [->|Nj].
    + rewrite NE in NJ. injection NJ as <- <-. split; [exact S1|]. rewrite D2p. intros n m Rm.
      destruct (S6 n m Rm) as (f & ds & If & Ef & Pf & Em & Gc & Jf & St & K & V).
      exists f, ds. repeat (split; [assumption|]). split; [|exact V].
      intros n' b I. apply K in I. apply STORED in I. destruct I as (j & q & gs & Lj' & NJ & I).
      exists j, q, gs. split; [lia|]. auto.
    + assert (Lj' : j < length pre) by lia. destruct (done_fresh _ _ _ D j q gs Lj' NJ) as [F1 F2].
      split; [exact F1|]. rewrite (D2q j q gs Nj NJ). intros n m Rm.
      destruct (F2 n m Rm) as (f & ds & If & Ef & Pf & Em & Gc & Jf & St & K & V).
      exists f, ds. repeat (split; [assumption|]). split; [|exact V].
      intros n' b I. destruct (K n' b I) as (i & q' & gs' & Li & NI & K').
      exists i, q', gs'. split; [exact Li|]. split; [exact NI|]. rewrite (D2q i q' gs'); auto. lia.
  - intros j q gs Lj NJ. rewrite (D2q j q gs); [|lia|exact NJ]. eapply (done_rest _ _ _ D j); eauto. lia.
Qed.

(** What comes from the caches is current. *)
Lemma package_cached (pre : list package) x d' p fs (rest : list package) : ps = pre ++ (p, fs) :: rest -> done pre x d' ->
  forall n a, In (n, a) (p_cached (compile_package w (required (length pre)) false (d p) x fs)) ->
  artefact_name a = n /\ current w ps (length pre) a.
Proof.
  intros E D n a.
  assert (NE : nth_error ps (length pre) = Some (p, fs)) by (rewrite E, nth_error_app2, PeanoNat.Nat.sub_diag; auto).
  pose proof (done_trusted _ _ _ _ _ _ E D) as T.
  pose proof (package_sim w (required (length pre)) (incomplete_modules x) (d p) (defined_modules x) (stale_modules x)
                (importable x) fs true [] [] T (done_defined _ _ _ D)) as SIM. cbv zeta in SIM.
  unfold compile_package.
  destruct (l_loaded (run w (required (length pre)) false (incomplete_modules x) (d p) (defined_modules x) (stale_modules x) fs)) as [ld|e] eqn:L; [|easy].
  fold (with_cached (importable x) (from_cache ld)) in *.
  destruct SIM as (us & _ & _ & US & SIM). destruct (SIM (importable x) (fun _ => eq_refl)) as ([A1 A2] & A3 & A4).
  assert (FC : In (n, a) (from_cache ld) -> artefact_name a = n /\ current w ps (length pre) a).
  2:{ set (y := analyse w (with_cached (importable x) (from_cache ld)) (incomplete_modules x) (to_compile ld)).
      destruct (a_failed y); [destruct (required (length pre) && negb (generates w (map snd (a_modules y))))|]; exact FC. }
  intros I. destruct (A4 n a I) as ((u & Iu & <-) & Ga).
  pose proof (analyse_current w ps (length pre) p fs us NE
    {| a_env := importable x; a_incomplete := []; a_modules := []; a_failed := []; a_skipped := [] |} US) as CUR.
  destruct CUR as [_ CUR].
  { split; cbn; [|easy]. intros m b Gm _. destruct (done_current _ _ _ D m b Gm) as (C1 & j & Lj & C2). split; auto.
    exists j. split; [lia|exact C2]. }
  fold (analyse w (importable x) [] us) in CUR. apply CUR; auto.
  rewrite A1. intros IF. apply analyse_all_names in IF. cbn in IF. destruct IF as [[]|IF].
  destruct (run_spec _ _ _ _ _ _ _ _ ld L) as (R1 & _ & _ & _ & R5 & _). apply R1 in IF. apply R5 in I. tauto.
Qed.

Lemma project_spec (rest : list package) : forall (pre : list package) x d', ps = pre ++ rest -> done pre x d' ->
  let r := compile_packages w c false d x rest in
  let d2 := apply_ops d' (b_ops r) in
  (forall p cached n a, In (p, cached) (b_cached r) -> In (n, a) cached ->
     exists k fs, nth_error ps k = Some (p, fs) /\ artefact_name a = n /\ current w ps k a)
  /\ (b_result r = inl tt -> forall k p fs, nth_error ps k = Some (p, fs) -> fresh d2 k p fs)
  /\ (root_errors ps r -> forall k p fs, nth_error ps k = Some (p, fs) ->
        if S k =? length ps then kept d2 k p fs else fresh d2 k p fs).
Proof.
  induction rest as [|[p fs] rest IH]; intros pre x d' E D; cbn [compile_packages].
  - split; [easy|]. split.
    + intros _ k p fs NE. apply (done_fresh _ _ _ D); auto. rewrite app_nil_r in E. rewrite <- E. exact (nth_lt _ _ _ NE).
    + intros (others & p & fs & _ & [(f0 & s0 & H)|H]); discriminate H.
  - assert (NE : nth_error ps (length pre) = Some (p, fs)) by (rewrite E, nth_error_app2, PeanoNat.Nat.sub_diag; auto).
    assert (RQ : should_codegen c (match rest with [] => true | _ => false end) = required (length pre)).
    { unfold required. f_equal. rewrite E, app_length. destruct rest; cbn [length]; symmetry.
      - apply PeanoNat.Nat.eqb_eq. lia.
      - apply PeanoNat.Nat.eqb_neq. lia. }
    replace (should_codegen c _) with (required (length pre)).
    set (r := compile_package w (required (length pre)) false (d p) x fs).
    pose proof (package_cached _ _ _ _ _ _ E D) as PC. fold r in PC.
    pose proof (done_step pre x d' p fs rest) as DS. fold r in DS.
    destruct (p_result r) as [ms|e] eqn:R.
    + specialize (DS ms E D R). cbn [b_ops b_result b_cached].
      rewrite apply_ops_app. specialize (IH (pre ++ [(p, fs)]) (p_memory r) _ ltac:(rewrite <- app_assoc; exact E) DS).
      destruct IH as (I1 & I2 & I3). split; [|split; [exact I2|]].
      * intros q cached n a [Q|Q] I; [|eauto]. injection Q as <- <-. exists (length pre), fs. split; auto.
      * intros RE. apply I3. exact RE.
    + cbn [b_ops b_result b_cached]. split; [|split; [discriminate|]].
      * intros q cached n a [Q|[]] I. injection Q as <- <-. exists (length pre), fs. split; auto.
      * intros (others & p' & fs' & E' & RE). cbn [b_result] in RE.
        assert (p' = p) as ->.
        { destruct RE as [(f0 & s0 & H)|H]; injection H as H _; congruence. }
        assert (length pre = length others) as LP.
        { eapply names_nth; [exact names|exact NE|]. rewrite E', nth_error_app2, PeanoNat.Nat.sub_diag; auto. reflexivity. }
        assert (rest = []) as ->.
        { pose proof (f_equal (@length package) (eq_trans (eq_sym E) E')) as LL.
          change (@length (text * list file)) with (@length package) in *.
          rewrite !app_length in LL. cbn in LL. destruct rest; cbn in LL; [reflexivity|lia]. }
        rewrite app_nil_r. intros k q gs NK.
        assert (LPS : length ps = S (length pre)) by (rewrite E, app_length; cbn; lia).
        set (d2 := apply_ops d' (in_package p (p_ops r))).
        assert (DP : d' p = d p) by (eapply (done_rest _ _ _ D (length pre)); eauto).
        assert (D2p : d2 p = applied (d p) (p_ops r)).
        { unfold d2. rewrite apply_in_package, eqb_same. now rewrite DP. }
        assert (D2q : forall j q gs, j <> length pre -> nth_error ps j = Some (q, gs) -> d2 q = d' q).
        { intros j q' gs' Nj NJ. unfold d2. rewrite apply_in_package. destruct (text_eqb p q') eqn:Q; auto.
          apply eqb_true in Q. subst q'. destruct Nj. eapply names_nth; eauto. }
        assert (Lk : k < length ps) by exact (nth_lt _ _ _ NK).
        destruct (PeanoNat.Nat.eqb_spec (S k) (length ps)) as [Ek|Ek].
        -- assert (k = length pre) as -> by lia. rewrite NE in NK. injection NK as <- <-.
           pose proof (done_trusted _ _ _ _ _ _ E D) as T.
           assert (FF : (exists failed skipped, p_result r = inr (TypeErrors failed skipped)) \/ p_result r = inr CodegenError).
           { rewrite R. destruct RE as [(f0 & s0 & H)|H]; injection H as ->; eauto. }
           destruct (package_failure w _ (d p) x fs T (done_defined _ _ _ D) FF) as [F1 F2].
           fold r in F2. split; [exact F1|]. rewrite D2p. intros n m Rm.
           destruct (F2 n m Rm) as (Rm' & G & f & If & Ef & K). split; [exact Rm'|]. split; [exact G|].
           exists f. split; [exact If|]. split; [exact Ef|]. rewrite !(usable_inc _ _ [] (incomplete_modules x)).
           destruct K as [K|[K1 K2]]; [left; exact K|right]. split; [exact K1|].
           intros c0 ds Gc n' b I. destruct (K2 c0 ds Gc n' b I) as [Q|Q].
           ++ destruct (done_stored _ _ _ D n' b Q) as (j & q & gs & Lj & NJ & K).
              exists j, q, gs. split; [lia|]. split; [exact NJ|]. rewrite (D2q j q gs); auto. lia.
           ++ exists (length pre), p, fs. split; [lia|]. split; [exact NE|]. rewrite D2p. exact Q.
        -- assert (Lk' : k < length pre) by lia. destruct (done_fresh _ _ _ D k q gs Lk' NK) as [F1 F2].
           split; [exact F1|]. rewrite (D2q k q gs) by (auto; lia). intros n m Rm.
           destruct (F2 n m Rm) as (f & ds & If & Ef & Pf & Em & Gc & Jf & St & K & V).
           exists f, ds. repeat (split; [assumption|]). split; [|exact V].
           intros n' b I. destruct (K n' b I) as (i & q' & gs' & Li & NI & K').
           exists i, q', gs'. split; [exact Li|]. split; [exact NI|]. rewrite (D2q i q' gs'); auto. lia.
Qed.

Lemma done_nothing x : importable x = [] -> done [] x d.
Proof.
  clear good. intros E. constructor; try (intros n a G; rewrite E in G; discriminate G); cbn; try (intros; lia). auto.
Qed.
End Project.
