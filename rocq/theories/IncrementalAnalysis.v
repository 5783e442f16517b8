(** What the analysis gives and what is stored. *)
From Coq Require Import NArith Bool List Permutation Lia.
From Verif Require Import Text TextProofs DepTree DepTreeSpec DepTreeProofs Incremental IncrementalSpec
  IncrementalProofs IncrementalRun IncrementalSim IncrementalPackage.
Import ListNotations.
Local Open Scope list_scope.
Local Open Scope nat_scope.

(** ** Modules without errors are current *)
Definition all_current (w : world) (ps : list package) (k : nat) (x : analysis) : Prop :=
  (forall n a, get n (a_env x) = Some a -> ~ In n (a_failed x) ->
     artefact_name a = n /\ exists j, j <= k /\ current w ps j a)
  /\ (forall u a, In (u, a) (a_modules x) -> ~ In (u_name u) (a_failed x) ->
     artefact_name a = u_name u /\ current w ps k a).

Lemma analyse_current w ps k p fs us : nth_error ps k = Some (p, fs) -> forall x,
  (forall u, In u us -> exists f, In f fs /\ read w f u) ->
  all_current w ps k x -> all_current w ps k (fold_left (analyse_module w) us x).
Proof.
  intros NE. induction us as [|u us IH]; intros x US C; cbn; auto.
  apply IH; [intros v I; apply US; now right|]. destruct C as [C1 C2].
  destruct (analyse_module_ok w x u) as [y S E M F K|y S J E M F K|y S J E M F K|y S J E M F K].
  - split; rewrite F, ?E, ?M; auto.
  - destruct (US u (or_introl eq_refl)) as (f & If & R1 & R2 & R3 & R4).
    apply judged_fine in J. destruct J as [J1 J2].
    assert (CM : artefact_name (made x u) = u_name u /\ current w ps k (made x u)).
    { split; [reflexivity|]. unfold made. rewrite R1, R3. eapply current_module; eauto.
      - now rewrite found_names.
      - intros d a I. apply found_in in I. destruct I as [I G].
        apply (proj1 (skips_false x u) S) in I as [N1 N2]. now apply C1. }
    split; rewrite F, ?E, ?M.
    + intros n a G N. rewrite get_insert in G. destruct (text_eqb (u_name u) n) eqn:Q; [|auto].
      injection G as <-. apply eqb_true in Q. subst n. destruct CM. eauto.
    + intros v a I N. apply in_app_or in I. destruct I as [I|[I|[]]]; [auto|]. injection I as <- <-. auto.
  - split; rewrite F, ?E, ?M.
    + intros n a G N. rewrite get_insert in G. destruct (text_eqb (u_name u) n) eqn:Q.
      * apply eqb_true in Q. subst n. destruct N. apply in_or_app. right. now left.
      * apply C1; auto. intros I. apply N. apply in_or_app. now left.
    + intros v a I N. apply in_app_or in I. destruct I as [I|[I|[]]].
      * apply C2; auto. intros Q. apply N. apply in_or_app. now left.
      * injection I as <- <-. destruct N. apply in_or_app. right. now left.
  - split; rewrite F, ?E, ?M.
    + intros n a G N. apply C1; auto. intros I. apply N. apply in_or_app. now left.
    + intros v a I N. apply C2; auto. intros Q. apply N. apply in_or_app. now left.
Qed.

(** ** When there are no errors *)
Definition fine_module (w : world) (env : list (text * artefact)) (u : uncompiled) (a : artefact) : Prop :=
  get (u_name u) env = Some a
  /\ exists ds, a = Compiled (u_name u) (u_content u) ds /\ map fst ds = u_imports u /\ judge w a = Fine
     /\ forall d b, In (d, b) ds -> get d env = Some b.
Definition imports_first (us : list uncompiled) : Prop :=
  forall us1 u us2 d, us = us1 ++ u :: us2 -> In d (u_imports u) -> ~ In d (map u_name (u :: us2)).

Lemma analyse_keeps w us : forall x n, ~ In n (map u_name us) ->
  get n (a_env (fold_left (analyse_module w) us x)) = get n (a_env x).
Proof.
  induction us as [|u us IH]; intros x n N; cbn; auto. rewrite IH by (intros I; apply N; now right).
  destruct (analyse_module_ok w x u) as [y S E M F K|y S J E M F K|y S J E M F K|y S J E M F K]; rewrite E; auto;
    rewrite get_insert; (destruct (text_eqb (u_name u) n) eqn:Q; auto);
    apply eqb_true in Q; subst n; destruct N; now left.
Qed.
Lemma analyse_fine w us : forall x, a_failed x = [] -> a_skipped x = [] ->
  a_failed (fold_left (analyse_module w) us x) = [] -> NoDup (map u_name us) -> imports_first us ->
  exists ms, a_modules (fold_left (analyse_module w) us x) = a_modules x ++ ms /\ map fst ms = us
    /\ forall u a, In (u, a) ms -> fine_module w (a_env (fold_left (analyse_module w) us x)) u a.
Proof.
  induction us as [|u us IH]; intros x F0 S0 FF ND IF; cbn in *.
  { exists []. split; [now rewrite app_nil_r|]. split; auto. easy. }
  inversion ND as [|? ? N1 N2]; subst.
  assert (SK : skips x u = false).
  { apply skips_false. rewrite F0, S0. auto. }
  pose proof (analyse_module_ok w x u) as AM. set (y := analyse_module w x u) in *.
  assert (FY : a_failed y = []).
  { destruct (a_failed y) as [|n l] eqn:Q; auto. destruct (analyse_all_grow w us y) as [G _].
    specialize (G n). rewrite Q, FF in G. destruct (G (or_introl eq_refl)). }
  destruct AM as [y S E M F K|y S J E M F K|y S J E M F K|y S J E M F K]; try congruence.
  2,3: rewrite FY in F; destruct (a_failed x); discriminate F.
  destruct (IH y) as (ms & M' & Ems & FM); auto; try congruence.
  { intros us1 v us2 d -> I. apply (IF (u :: us1) v us2 d eq_refl I). }
  exists ((u, made x u) :: ms). split.
  { rewrite M', M, <- app_assoc. reflexivity. }
  split; [cbn; congruence|]. intros v a [Q|I]; [|auto]. injection Q as <- <-.
  apply judged_fine in J. destruct J as [J1 J2]. split.
  - rewrite analyse_keeps by auto. now rewrite E, get_insert, eqb_same.
  - exists (found (a_env x) (u_imports u)). split; [reflexivity|]. split; [now apply found_names|]. split; [exact J1|].
    intros d b I. apply found_in in I. destruct I as [I G].
    pose proof (IF [] u us d eq_refl I) as ND'. cbn in ND'.
    rewrite analyse_keeps by tauto. rewrite E, get_insert.
    destruct (text_eqb (u_name u) d) eqn:Q; auto. apply eqb_true in Q. tauto.
Qed.

(** ** Written metadata *)
Definition meta_of (w : world) (req : bool) (u : uncompiled) : meta :=
  {| m_mtime := u_mtime u; m_codegen := req; m_imports := u_imports u;
     m_fingerprint := fingerprint w (c_text (u_content u)) |}.
Lemma written_other w req ms : forall s n, ~ In n (map (fun m => u_name (fst m)) ms) ->
  get n (metas (applied s (write_metadata w req ms))) = get n (metas s)
  /\ get n (caches (applied s (write_metadata w req ms))) = get n (caches s).
Proof.
  induction ms as [|[u a] ms IH]; intros s n N; cbn [map fst] in N; [auto|].
  cbn [write_metadata flat_map]. fold (write_metadata w req ms). rewrite applied_app.
  destruct (IH (applied s [WriteCache (u_name u) a; WriteMeta (u_name u) (meta_of w req u)]) n) as [A B].
  { intros I. apply N. now right. }
  unfold meta_of in A, B. rewrite A, B. cbn [applied fold_left apply metas caches]. rewrite !get_insert.
  destruct (text_eqb (u_name u) n) eqn:E; auto. apply eqb_true in E. destruct N. now left.
Qed.
Lemma written_module w req ms : forall s u a, NoDup (map (fun m => u_name (fst m)) ms) -> In (u, a) ms ->
  get (u_name u) (metas (applied s (write_metadata w req ms))) = Some (meta_of w req u)
  /\ get (u_name u) (caches (applied s (write_metadata w req ms))) = Some a.
Proof.
  induction ms as [|[v b] ms IH]; intros s u a ND I; [destruct I|]. cbn [map fst] in ND.
  inversion ND as [|? ? N1 N2]; subst.
  cbn [write_metadata flat_map]. fold (write_metadata w req ms). rewrite applied_app.
  destruct I as [I|I].
  - injection I as -> ->.
    destruct (written_other w req ms (applied s [WriteCache (u_name u) a; WriteMeta (u_name u) (meta_of w req u)]) (u_name u) N1) as [A B].
    unfold meta_of in A, B. rewrite A, B. cbn [applied fold_left apply metas caches]. rewrite !get_insert, !eqb_same. auto.
  - now apply IH.
Qed.

(** ** More about [run] *)
Lemma run_standard w req lsp inc s defined stale fs ld : l_loaded (run w req lsp inc s defined stale fs) = inl ld ->
  NoDup (map f_name fs) /\ (forall f, In f fs -> ~ In (f_name f) defined)
  /\ (forall f, In f fs -> ~ usable w req lsp inc s f -> standard w (f_name f) = false).
Proof.
  intros H. destruct (run_inv _ _ _ _ _ _ _ _ ld H) as (is & order & os & L & O & T & P & OP).
  apply load_files_ok in L. destruct L as (F & ND & D & Def). split; auto. split; auto.
  intros f If U. destruct (loads_input w req lsp inc s fs is f F If) as (i & Ii & Li).
  destruct (standard w (f_name f)) eqn:S; auto.
  assert (existsb (overwrites w) is = true); [|congruence].
  apply existsb_exists. exists i. split; auto. destruct i as [u|g imports].
  - apply load_new in Li. destruct Li as (_ & R & _). cbn. congruence.
  - apply load_cached in Li. destruct Li as (_ & U' & _). contradiction.
Qed.
Lemma usable_inc w req inc inc' s f : usable w req false inc s f <-> usable w req false inc' s f.
Proof.
  unfold usable. split; intros (m & R & C & K); exists m; (split; [exact R|split; [exact C|]]);
    (destruct K as [K|[K _]]; [left; exact K|right; split; [exact K|]]); intros [Q _]; discriminate Q.
Qed.

(** ** One package *)
Section Package.
Variables (w : world) (req : bool) (s : store) (x : memory) (fs : list file).
Hypothesis T : trusted w req (incomplete_modules x) s (stale_modules x) (importable x) fs.
Hypothesis DOM : forall n a, get n (importable x) = Some a -> In n (defined_modules x).

Notation r := (compile_package w req false s x fs).
Notation l := (run w req false (incomplete_modules x) s (defined_modules x) (stale_modules x) fs).
Notation recompiled := (recompiled w req false (incomplete_modules x) s (stale_modules x) fs).
Notation usable := (usable w req false (incomplete_modules x) s).

(** The compiled modules come after what they import. *)
Lemma compiled_order ld : l_loaded l = inl ld -> imports_first (to_compile ld).
Proof.
  intros L. destruct (run_spec _ _ _ _ _ _ _ _ ld L) as (R1 & R2 & R3 & R4 & _).
  destruct (run_standard _ _ _ _ _ _ _ _ ld L) as (ND & _ & _).
  intros us1 u us2 d E I. destruct (R3 u) as (f & If & Rf). { rewrite E. apply in_or_app. right. now left. }
  apply (R4 us1 u us2 f d E If); [symmetry; apply Rf|].
  destruct (usable_dec w req false (incomplete_modules x) s f) as [U|U]; [left|right; auto]. split; auto.
  destruct (T f If U) as (m & ds & Rm & Em & Pf & _). exists m. split; auto. rewrite Em.
  destruct Rf as (_ & _ & _ & Rf). congruence.
Qed.

Lemma cached_good ld : l_loaded l = inl ld -> forall n a, In (n, a) (from_cache ld) ->
  exists f m ds, In f fs /\ f_name f = n /\ usable f /\ recorded s n m /\ m_imports m = map fst ds
    /\ parse w (c_text (f_content f)) = Some (map fst ds)
    /\ a = Compiled n (f_content f) ds /\ get n (caches s) = Some a /\ judge w a = Fine /\ standard w n = false
    /\ forall d b, In (d, b) ds ->
       (get d (importable x) = Some b /\ ~ In d (map f_name fs)) \/ In (d, b) (from_cache ld).
Proof.
  intros L n a I. destruct (run_spec _ _ _ _ _ _ _ _ ld L) as (R1 & R2 & R3 & R4 & R5 & R6 & R7 & R8 & R9 & R10).
  destruct (run_standard _ _ _ _ _ _ _ _ ld L) as (ND & DJ & _).
  apply R5 in I. destruct I as (I & NR & G). apply in_map_iff in I. destruct I as (f & <- & If).
  destruct (usable_dec w req false (incomplete_modules x) s f) as [U|U].
  2:{ destruct NR. now constructor. }
  destruct (T f If U) as (m & ds & Rm & Em & Pf & Gc & Jf & St & K).
  exists f, m, ds. split; auto. split; auto. split; auto. split; auto. split; auto. split; auto.
  rewrite G in Gc. injection Gc as ->. split; auto. split; auto. split; auto. split; auto.
  intros d b Id. assert (Im : In d (m_imports m)) by (rewrite Em; now apply in_map with (f := fst) in Id).
  destruct (K d b Id) as [Q|[Q|[(m' & Q1) Q2]]].
  - destruct NR. eapply stale_import; eauto.
  - left. split; auto. intros J. apply in_map_iff in J. destruct J as (g & <- & Ig). apply (DJ g Ig). eapply DOM; eauto.
  - right. apply R5. destruct (member d (map f_name fs)) eqn:M.
    + apply member_true in M. split; auto. split; auto. intros R. apply NR. eapply recompiled_import; eauto.
    + apply member_false in M. destruct NR. eapply stale_import; eauto. right. split; eauto.
Qed.

(** A package that compiles. *)
Lemma package_success ms : p_result r = inl ms ->
  let s' := applied s (p_ops r) in
  let env := importable (p_memory r) in
  NoDup (map f_name fs)
  /\ (forall f, In f fs -> ~ In (f_name f) (defined_modules x))
  /\ (forall n, In n (defined_modules (p_memory r)) <-> In n (defined_modules x) \/ In n (map f_name fs))
  /\ (forall n, ~ In n (map f_name fs) -> get n env = get n (importable x))
  /\ (forall n, In n (map f_name fs) -> exists m a, recorded s' n m /\ get n (caches s') = Some a /\ get n env = Some a)
  /\ (forall n m, recorded s' n m -> exists f ds, In f fs /\ f_name f = n
        /\ parse w (c_text (f_content f)) = Some (map fst ds) /\ m_imports m = map fst ds
        /\ get n (caches s') = Some (Compiled n (f_content f) ds)
        /\ judge w (Compiled n (f_content f) ds) = Fine /\ standard w n = false
        /\ (forall d b, In (d, b) ds -> get d env = Some b)
        /\ ((m_mtime m = f_mtime f /\ m_fingerprint m = fingerprint w (c_text (f_content f)))
            \/ (recorded s n m /\ get n (caches s) = Some (Compiled n (f_content f) ds))))
  /\ (forall n, In n (stale_modules x) -> In n (stale_modules (p_memory r)))
  /\ (forall n m a, recorded s n m -> get n (caches s) = Some a -> ~ In n (stale_modules (p_memory r)) -> get n env = Some a).
Proof.
  unfold compile_package. destruct (l_loaded l) as [ld|e] eqn:L; [|discriminate].
  fold (with_cached (importable x) (from_cache ld)).
  unfold analyse.
  set (x0 := {| a_env := with_cached (importable x) (from_cache ld); a_incomplete := incomplete_modules x;
                a_modules := []; a_failed := []; a_skipped := [] |}).
  set (y := fold_left (analyse_module w) (to_compile ld) x0) in *.
  destruct (a_failed y) as [|] eqn:FY; [|discriminate].
  destruct (req && negb (generates w (map snd (a_modules y)))); [discriminate|].
  cbv zeta. cbn [p_result p_ops p_memory importable defined_modules stale_modules]. intros _.
  pose proof (cached_good ld L) as CG.
  destruct (run_spec _ _ _ _ _ _ _ _ ld L) as (R1 & R2 & R3 & R4 & R5 & R6 & R7 & R8 & R9 & R10).
  destruct (run_standard _ _ _ _ _ _ _ _ ld L) as (ND & DJ & STD).
  pose proof (compiled_order ld L) as IF.
  destruct (analyse_fine w (to_compile ld) x0 eq_refl eq_refl FY R2 IF) as (mods & EM & FM & FINE).
  fold y in EM, FINE. change (a_modules x0 ++ mods) with mods in EM. rewrite EM in *.
  assert (NDm : NoDup (map (fun m => u_name (fst m)) mods)).
  { rewrite <- map_map. rewrite FM. exact R2. }
  assert (NM : forall n, In n (map (fun m => u_name (fst m)) mods) <-> recompiled n).
  { intros n. rewrite <- map_map, FM. apply R1. }
  assert (KEEP : forall n, ~ recompiled n -> get n (a_env y) = get n (with_cached (importable x) (from_cache ld))).
  { intros n N. unfold y. rewrite analyse_keeps; [reflexivity|]. now rewrite R1. }
  assert (FC : forall n a, In (n, a) (from_cache ld) -> get n (a_env y) = Some a).
  { intros n a I. rewrite KEEP by (apply R5 in I; apply I). rewrite with_cached_get by auto.
    now rewrite (get_nodup _ _ _ R6 I). }
  assert (OUT : forall n, ~ In n (map f_name fs) -> get n (a_env y) = get n (importable x)).
  { intros n N. assert (NR : ~ recompiled n).
    { intros R. apply N. clear - R. destruct R; now apply in_map. }
    rewrite KEEP, with_cached_get by auto. destruct (get n (from_cache ld)) as [a|] eqn:G; auto.
    apply get_in, R5 in G. destruct G. contradiction. }
  assert (UNCH : forall n, ~ recompiled n ->
     get n (metas (applied s (l_ops l ++ write_metadata w req mods))) = get n (metas (applied s (l_ops l)))
     /\ get n (caches (applied s (l_ops l ++ write_metadata w req mods))) = get n (caches (applied s (l_ops l)))).
  { intros n N. rewrite applied_app. apply written_other. now rewrite NM. }
  split; [exact ND|]. split; [exact DJ|]. split; [exact R9|]. split; [exact OUT|].
  assert (WR : forall n, recompiled n -> exists u a, In (u, a) mods /\ u_name u = n).
  { intros n R. apply NM in R. apply in_map_iff in R. destruct R as ([u a] & E & I). eauto. }
  split; [|split; [|split]].
  - intros n I. destruct (R7 n I) as [R|Ifc].
    + destruct (WR n R) as (u & a & Iu & <-). rewrite applied_app.
      destruct (written_module w req mods (applied s (l_ops l)) u a NDm Iu) as [W1 W2].
      exists (meta_of w req u), a. split; [exact W1|]. split; [exact W2|]. now apply FINE.
    + apply in_map_iff in Ifc. destruct Ifc as ([n' a] & E & Ifc). cbn in E. subst n'.
      pose proof (proj1 (R5 n a) Ifc) as (_ & NR & G). destruct (UNCH n NR) as [U1 U2].
      destruct (CG n a Ifc) as (f & m & ds & If & Ef & Uf & Rm & _).
      exists m, a. unfold recorded. rewrite U1, U2.
      destruct (R10 n) as [(A & B & _)|(A & B & [GN|(g & Ig & Eg & Ug & Rg)])]; [|destruct GN; contradiction|contradiction].
      rewrite A, B. split; [exact Rm|]. split; [exact G|now apply FC].
  - intros n m Rm. destruct (member n (map u_name (to_compile ld))) eqn:MN.
    + apply member_true, R1 in MN. destruct (WR n MN) as (u & a & Iu & <-). unfold recorded in *.
      rewrite applied_app in *.
      destruct (written_module w req mods (applied s (l_ops l)) u a NDm Iu) as [W1 W2].
      rewrite W1 in Rm. injection Rm as <-. destruct (FINE u a Iu) as (_ & ds & -> & Eds & Jf & K).
      assert (Itc : In u (to_compile ld)) by (rewrite <- FM; now apply in_map with (f := fst) in Iu).
      destruct (R3 u Itc) as (f & If & F1 & F2 & F3 & F4).
      exists f, ds. rewrite W2, F3 in *. rewrite Eds. split; auto. split; auto. split; auto. split; auto. split; auto.
      split; auto. split.
      { destruct (usable_dec w req false (incomplete_modules x) s f) as [U|U]; [|rewrite F1; now apply STD].
        destruct (T f If U) as (_ & _ & _ & _ & _ & _ & _ & St & _). congruence. }
      split; auto. left. cbn. split; congruence.
    + apply member_false in MN. rewrite R1 in MN. destruct (UNCH n MN) as [U1 U2]. unfold recorded in *. rewrite U1 in Rm. rewrite U2.
      destruct (R10 n) as [(A & B & NG & _)|(A & _)]; [|congruence]. rewrite A in Rm. rewrite B.
      assert (I : In n (map f_name fs)).
      { destruct (member n (map f_name fs)) eqn:Q; [now apply member_true|]. apply member_false in Q. destruct NG. split; eauto. }
      destruct (R7 n I) as [R|Ifc]; [contradiction|]. apply in_map_iff in Ifc. destruct Ifc as ([n' a] & E & Ifc). cbn in E. subst n'.
      destruct (CG n a Ifc) as (f & m' & ds & If & Ef & Uf & Rm' & Em & Pf & -> & G & Jf & St & K).
      assert (m' = m) as -> by (unfold recorded in *; congruence).
      exists f, ds. split; auto. split; auto. split; auto. split; auto. split; auto. split; auto. split; auto. split.
      { intros d b Id. destruct (K d b Id) as [[Q1 Q2]|Q]; [rewrite OUT; auto|now apply FC]. }
      right. auto.
  - intros n I. apply R8. now left.
  - intros n m a Rm G NS. rewrite R8 in NS. apply FC. apply R5.
    assert (I : In n (map f_name fs)).
    { destruct (member n (map f_name fs)) eqn:Q; [now apply member_true|]. apply member_false in Q. destruct NS. right. left. split; eauto. }
    split; [exact I|]. split; [|exact G]. intros R. apply NS. auto.
Qed.

(** A package with errors. *)
Lemma package_failure : (exists failed skipped, p_result r = inr (TypeErrors failed skipped)) \/ p_result r = inr CodegenError ->
  let s' := applied s (p_ops r) in
  NoDup (map f_name fs)
  /\ forall n m, recorded s' n m -> recorded s n m /\ get n (caches s') = get n (caches s)
     /\ exists f, In f fs /\ f_name f = n
        /\ (~ usable f
            \/ (usable f /\ forall c ds, get n (caches s) = Some (Compiled n c ds) ->
                forall d b, In (d, b) ds ->
                get d (importable x) = Some b \/ ((exists m', recorded s' d m') /\ get d (caches s') = Some b))).
Proof.
  intros H. assert (LD : (exists ld, l_loaded l = inl ld) /\ p_ops r = l_ops l).
  { unfold compile_package in *. destruct (l_loaded l) as [ld|e] eqn:L.
    - split; eauto. fold (with_cached (importable x) (from_cache ld)) in *.
      destruct (a_failed _); [|reflexivity].
      destruct (req && _); [reflexivity|]. cbn in H. destruct H as [(? & ? & H)|H]; discriminate H.
    - exfalso. cbn in H. assert (K : (forall a b, e <> TypeErrors a b) /\ e <> CodegenError); [|
        destruct K as [K1 K2]; destruct H as [(f0 & s0 & H)|H]; injection H as H; [exact (K1 _ _ H)|exact (K2 H)]].
      clear H. unfold run in L. destruct (load_files _ _ _ _ _ _ _) as [[dd is]|e'] eqn:LF.
      + destruct (existsb _ _); [injection L as <-; split; congruence|].
        destruct (toposort_deps _) as [order|[names|]]; [|injection L as <-; split; congruence..].
        destruct (process w is order _ _) as [[os st] rr] eqn:P. cbn in L. subst rr.
        clear - P. revert os st e P. set (s0 := applied s _). clearbody s0. set (st0 := rev _ ++ _). clearbody st0. revert s0 st0.
        induction order as [|n order IH]; intros s0 st0 os st e; cbn [process]; [congruence|].
        destruct (find_input n is) as [[u|f imports]|]; [| |intros Q; injection Q as _ _ <-; split; congruence].
        * destruct (process w is order s0 (u_name u :: st0)) as [[os' st'] [ld'|e']] eqn:P; [congruence|].
          intros Q. injection Q as _ _ <-. eapply IH; eauto.
        * destruct (existsb _ imports).
          -- destruct (read_source w f) as [u|e'] eqn:RS.
             ++ destruct (process w is order _ _) as [[os' st'] [ld'|e'']] eqn:P; [congruence|].
                intros Q. injection Q as _ _ <-. eapply IH; eauto.
             ++ intros Q. injection Q as _ _ <-. unfold read_source in RS. destruct (parse w _); [discriminate|].
                injection RS as <-. split; congruence.
          -- destruct (get (f_name f) (caches s0)); [|intros Q; injection Q as _ _ <-; split; congruence].
             destruct (process w is order s0 st0) as [[os' st'] [ld'|e'']] eqn:P; [congruence|].
             intros Q. injection Q as _ _ <-. eapply IH; eauto.
      + injection L as <-. clear - LF. revert LF. generalize (defined_modules x).
        induction fs as [|f l IH]; intros dd; cbn [load_files]; [discriminate|].
        destruct (load w req false (incomplete_modules x) s f) as [i|e0] eqn:Q.
        * destruct (member (f_name f) dd); [intros E; injection E as <-; split; congruence|].
          destruct (load_files _ _ _ _ _ _ l) as [[d1 is]|e0] eqn:R; [discriminate|].
          intros E. injection E as ->. eapply IH; eauto.
        * intros E. injection E as ->. apply load_error in Q. unfold read_source in Q.
          destruct (parse w _); [discriminate|]. injection Q as <-. split; congruence. }
  destruct LD as [(ld & L) ->].
  pose proof (cached_good ld L) as CG.
  destruct (run_spec _ _ _ _ _ _ _ _ ld L) as (R1 & R2 & R3 & R4 & R5 & R6 & R7 & R8 & R9 & R10).
  destruct (run_standard _ _ _ _ _ _ _ _ ld L) as (ND & DJ & STD). cbv zeta. split; [exact ND|].
  intros n m Rm. unfold recorded in *.
  destruct (R10 n) as [(A & B & NG & NR)|(A & _)]; [|congruence]. rewrite A in Rm. split; [exact Rm|]. split; [exact B|].
  assert (I : In n (map f_name fs)).
  { destruct (member n (map f_name fs)) eqn:Q; [now apply member_true|]. apply member_false in Q. destruct NG. split; eauto. }
  apply in_map_iff in I. destruct I as (f & <- & If). exists f. split; auto. split; auto.
  destruct (usable_dec w req false (incomplete_modules x) s f) as [U|U]; [right|now left]. split; auto.
  intros c ds G d b Id. pose proof (NR f If eq_refl U) as NR'.
  assert (Ifc : In (f_name f, Compiled (f_name f) c ds) (from_cache ld)).
  { apply R5. split; [now apply in_map|]. auto. }
  destruct (CG _ _ Ifc) as (f' & m' & ds' & If' & Ef' & Uf & Rm' & Em & Pf & Ea & G' & Jf & St & K).
  injection Ea as _ <-. destruct (K d b Id) as [[Q1 Q2]|Q]; [now left|right].
  destruct (CG _ _ Q) as (g & mg & dsg & Ig & Eg & Ug & Rmg & _).
  apply R5 in Q. destruct Q as (Q1 & Q2 & Q3).
  destruct (R10 d) as [(A' & B' & NG' & NR2)|(A' & B' & [GN|(h & Ih & Eh & Uh & Rh)])];
    [|destruct GN; contradiction|contradiction].
  rewrite A', B'. split; [eauto|exact Q3].
Qed.
End Package.
