(** Histories of builds. *)
From Coq Require Import NArith Arith Bool List Permutation Lia.
From Verif Require Import Text TextProofs DepTree DepTreeSpec DepTreeProofs Incremental IncrementalSpec
  IncrementalProofs IncrementalRun IncrementalSim IncrementalPackage IncrementalAnalysis IncrementalProject.
Import ListNotations.
Local Open Scope list_scope.
Local Open Scope nat_scope.

(** ** With and without caches *)
Section Clean.
Variables (w : world) (c : codegen) (d : disk) (ps : list package).
Hypothesis names : NoDup (map fst ps).
Hypothesis good : forall k p fs f, nth_error ps k = Some (p, fs) -> In f fs ->
  usable w (required c ps k) false [] (d p) f ->
  exists m ds, recorded (d p) (f_name f) m /\ m_imports m = map fst ds
    /\ parse w (c_text (f_content f)) = Some (map fst ds)
    /\ get (f_name f) (caches (d p)) = Some (Compiled (f_name f) (f_content f) ds)
    /\ judge w (Compiled (f_name f) (f_content f) ds) = Fine /\ standard w (f_name f) = false
    /\ live ps d k ds.
Hypothesis generated : forall l, generates w l = true.

Lemma clean_same (rest : list package) : forall (pre : list package) x xc d', ps = pre ++ rest -> done w d ps pre x d' ->
  defined_modules xc = defined_modules x -> (forall n, get n (importable xc) = get n (importable x)) ->
  let r := compile_packages w c false d x rest in
  let rc := compile_packages w c false (fun _ => empty) xc rest in
  b_result r = b_result rc /\ (forall n, get n (importable (b_memory r)) = get n (importable (b_memory rc))).
Proof.
  induction rest as [|[p fs] rest IH]; intros pre x xc d' E D ED EI; cbn [compile_packages]; [auto|].
  assert (NE : nth_error ps (length pre) = Some (p, fs)) by (rewrite E, nth_error_app2, PeanoNat.Nat.sub_diag; auto).
  assert (RQ : should_codegen c (match rest with [] => true | _ => false end) = required c ps (length pre)).
  { unfold required. f_equal. rewrite E, app_length. destruct rest; cbn [length]; symmetry.
    - apply PeanoNat.Nat.eqb_eq. lia.
    - apply PeanoNat.Nat.eqb_neq. lia. }
  replace (should_codegen c _) with (required c ps (length pre)).
  pose proof (done_trusted w c d ps good _ _ _ _ _ _ E D) as T.
  pose proof (package_sim w (required c ps (length pre)) (incomplete_modules x) (d p) (defined_modules x) (stale_modules x)
                (importable x) fs (required c ps (length pre)) (incomplete_modules xc) (stale_modules xc) T
                (done_defined _ _ _ _ _ _ D)) as SIM. cbv zeta in SIM.
  pose proof (done_step w c d ps names good pre x d' p fs rest) as DS. cbv zeta in DS.
  set (rp := compile_package w (required c ps (length pre)) false (d p) x fs) in *.
  set (rq := compile_package w (required c ps (length pre)) false empty xc fs) in *.
  assert (PR : (exists ms ms', p_result rp = inl ms /\ p_result rq = inl ms'
                  /\ defined_modules (p_memory rq) = defined_modules (p_memory rp))
               \/ (exists e, p_result rp = inr e /\ p_result rq = inr e)).
  { unfold rp, rq, compile_package in *. rewrite ED in *.
    destruct (l_loaded (run w (required c ps (length pre)) false (incomplete_modules x) (d p) (defined_modules x) (stale_modules x) fs)) as [ld|e] eqn:LI; try rewrite LI in SIM.
    2:{ right. exists e. rewrite SIM. auto. }
    destruct SIM as (us & L & DF & _ & SIM). rewrite L.
    destruct (SIM (importable xc) EI) as ([A1 A2] & _). cbn [to_compile from_cache fold_left].
    fold (with_cached (importable x) (from_cache ld)). rewrite A1, A2, !generated.
    destruct (a_failed (analyse w (with_cached (importable x) (from_cache ld)) (incomplete_modules x) (to_compile ld))) eqn:FY.
    - left. rewrite !andb_false_r. cbn. eauto 10.
    - right. eexists. split; reflexivity. }
  assert (PI : forall n, get n (importable (p_memory rp)) = get n (importable (p_memory rq))).
  { clear - SIM EI ED. unfold rp, rq, compile_package in *. rewrite ED in *.
    destruct (l_loaded (run w (required c ps (length pre)) false (incomplete_modules x) (d p) (defined_modules x) (stale_modules x) fs)) as [ld|e] eqn:LI; try rewrite LI in SIM.
    2:{ rewrite SIM. cbn. intros n. now rewrite EI. }
    destruct SIM as (us & L & DF & _ & SIM). rewrite L.
    destruct (SIM (importable xc) EI) as (_ & A3 & _). cbn [to_compile from_cache fold_left].
    fold (with_cached (importable x) (from_cache ld)).
    set (yi := analyse w (with_cached (importable x) (from_cache ld)) (incomplete_modules x) (to_compile ld)) in *.
    set (yc := analyse w (importable xc) (incomplete_modules xc) us) in *.
    intros n. specialize (A3 n).
    destruct (a_failed yi); destruct (a_failed yc);
      repeat match goal with |- context [if ?b then _ else _] => destruct b end; exact A3. }
  destruct PR as [(ms & ms' & R1 & R2 & DM)|(e & R1 & R2)]; rewrite R1, R2.
  - cbn [b_result b_memory]. apply (IH (pre ++ [(p, fs)]) _ _ (apply_ops d' (in_package p (p_ops rp)))); auto.
    + rewrite <- app_assoc. exact E.
    + eapply DS; eauto.
  - cbn [b_result b_memory]. auto.
Qed.
End Clean.

(** ** Histories *)
Lemma live_names ps qs d k ds : map fst ps = map fst qs -> live ps d k ds -> live qs d k ds.
Proof.
  intros E L n b I. destruct (L n b I) as (j & q & fs & Lj & NJ & K).
  pose proof (map_nth_error fst _ _ NJ) as M. cbn in M. change (list (text * list file)) with (list package) in *.
  rewrite E in M. destruct (nth_error qs j) as [[q' gs]|] eqn:Q.
  - rewrite (map_nth_error fst _ _ Q) in M. cbn in M. injection M as ->. exists j, q, gs. auto.
  - exfalso. apply nth_error_None in Q. apply nth_lt in M. rewrite map_length in M.
    change (@length (text * list file)) with (@length package) in *. lia.
Qed.

Section History.
Variables (w : world) (names : list text).
Hypothesis NDn : NoDup names.

Definition entry (st : state) (past : list (text * file)) (retired : text -> text -> content -> Prop) (must : bool)
    (k : nat) (p n : text) (m : meta) : Prop :=
  exists v ds, In (p, v) past /\ f_name v = n /\ m_mtime m = f_mtime v
    /\ m_fingerprint m = fingerprint w (c_text (f_content v))
    /\ parse w (c_text (f_content v)) = Some (map fst ds) /\ m_imports m = map fst ds
    /\ get n (caches (caches_of st p)) = Some (Compiled n (f_content v) ds)
    /\ judge w (Compiled n (f_content v) ds) = Fine /\ standard w n = false
    /\ (forall g, has_file st p g -> f_name g = n -> g = v \/ (f_mtime v < f_mtime g)%N)
    /\ (live (packages st) (caches_of st) k ds
        \/ (retired p n (f_content v) /\ forall g, has_file st p g -> f_name g = n -> f_content g <> f_content v)
        \/ (must = true /\ S k = length (packages st) /\ m_codegen m = false)).

Record inv (st : state) (past : list (text * file)) (retired : text -> text -> content -> Prop) (must : bool) : Prop := {
  i_names : map fst (packages st) = names;
  i_files : forall p g, has_file st p g -> In (p, g) past;
  i_past : forall p g v, In (p, g) past -> In (p, v) past -> f_name g = f_name v ->
    fingerprint w (c_text (f_content g)) = fingerprint w (c_text (f_content v)) -> f_content g = f_content v;
  i_entry : forall k p fs n m, nth_error (packages st) k = Some (p, fs) -> recorded (caches_of st p) n m ->
    entry st past retired must k p n m }.

Lemma the_files st p fs gs : map fst (packages st) = names -> In (p, fs) (packages st) -> In (p, gs) (packages st) -> fs = gs.
Proof.
  intros E I J. apply In_nth_error in I as [i I]. apply In_nth_error in J as [j J].
  assert (i = j) as <-. { eapply names_nth; eauto. now rewrite E. }
  rewrite I in J. now injection J as <-.
Qed.

Lemma inv_good st past retired must c : inv st past retired must -> (must = true -> should_codegen c true = true) ->
  forall k p fs f, nth_error (packages st) k = Some (p, fs) -> In f fs ->
  usable w (required c (packages st) k) false [] (caches_of st p) f ->
  exists m ds, recorded (caches_of st p) (f_name f) m /\ m_imports m = map fst ds
    /\ parse w (c_text (f_content f)) = Some (map fst ds)
    /\ get (f_name f) (caches (caches_of st p)) = Some (Compiled (f_name f) (f_content f) ds)
    /\ judge w (Compiled (f_name f) (f_content f) ds) = Fine /\ standard w (f_name f) = false
    /\ live (packages st) (caches_of st) k ds.
Proof.
  intros I MC k p fs f NE If U.
  destruct U as (m & Rm & CG & U).
  destruct (i_entry _ _ _ _ I _ _ _ _ _ NE Rm) as (v & ds & Iv & Ev & Em & Ef & Pv & Ei & G & J & S & K & L).
  assert (HF : has_file st p f) by (exists fs; split; auto; eapply nth_error_In; eauto).
  assert (EC : f_content f = f_content v).
  { destruct (K f HF eq_refl) as [->|Lt]; auto. destruct U as [U|[U _]]; [lia|].
    eapply (i_past _ _ _ _ I p); eauto.
    - eapply i_files; eauto.
    - congruence. }
  exists m, ds. rewrite EC. repeat (split; [assumption|]).
  destruct L as [L|[(R & L)|(M & Ek & L)]]; auto.
  - destruct (L f HF eq_refl EC).
  - unfold required in CG. rewrite Ek, PeanoNat.Nat.eqb_refl, (MC M) in CG. rewrite CG in L; [discriminate L|reflexivity].
Qed.

(** Only the compiler differs. *)
Lemma inv_compiler st x past retired must : inv st past retired must ->
  inv {| packages := packages st; caches_of := caches_of st; compiler := x |} past retired must.
Proof. intros [A B C D]. constructor; auto. Qed.

Lemma change_names p g ps : map fst (change p g ps) = map fst ps.
Proof. unfold change. rewrite map_map. apply map_ext. intros [q fs]. now destruct (text_eqb p q). Qed.

Lemma inv_files st st' past past' retired must :
  caches_of st' = caches_of st -> map fst (packages st') = map fst (packages st) ->
  (forall x, In x past -> In x past') ->
  (forall p g, has_file st' p g -> In (p, g) past') ->
  (forall p g v, In (p, g) past' -> In (p, v) past' -> f_name g = f_name v ->
     fingerprint w (c_text (f_content g)) = fingerprint w (c_text (f_content v)) -> f_content g = f_content v) ->
  (forall p g v, has_file st' p g -> has_file st p g
     \/ (~ retired p (f_name g) (f_content g)
         /\ (In (p, v) past -> f_name g = f_name v -> (f_mtime v < f_mtime g)%N))) ->
  inv st past retired must -> inv st' past' retired must.
Proof.
  intros EC EN SUB FI PA H I. constructor; auto.
  - rewrite EN. apply (i_names _ _ _ _ I).
  - rewrite EC. intros k p fs n m NE Rm.
    assert (exists gs, nth_error (packages st) k = Some (p, gs)) as (gs & NE').
    { pose proof (map_nth_error fst _ _ NE) as M. cbn in M. change (list (text * list file)) with (list package) in *.
      rewrite EN in M. destruct (nth_error (packages st) k) as [[q gs]|] eqn:Q.
      - rewrite (map_nth_error fst _ _ Q) in M. cbn in M. injection M as ->. eauto.
      - exfalso. apply nth_error_None in Q. apply nth_lt in M. rewrite map_length in M.
        change (@length (text * list file)) with (@length package) in *. lia. }
    destruct (i_entry _ _ _ _ I _ _ _ _ _ NE' Rm) as (v & ds & Iv & Ev & Em & Ef & Pv & Ei & G & J & S & K & L).
    exists v, ds. split; auto. rewrite EC. repeat (split; [assumption|]). split.
    + intros g Hg Eg. destruct (H p g v Hg) as [Hg'|[_ Hg']]; auto. right. apply Hg'; auto. congruence.
    + destruct L as [L|[(R & L)|(M & Ek & L)]].
      * left. eapply live_names; [symmetry; exact EN|exact L].
      * right. left. split; auto. intros g Hg Eg. destruct (H p g v Hg) as [Hg'|[Hg' _]]; auto.
        intros Q. apply Hg'. rewrite Eg, Q. exact R.
      * right. right. split; auto. split; auto. rewrite Ek.
        apply (f_equal (@length text)) in EN. rewrite !map_length in EN. exact (eq_sym EN).
Qed.

Lemma in_change p g ps q fs : In (q, fs) (change p g ps) ->
  exists gs, In (q, gs) ps /\ fs = if text_eqb p q then g gs else gs.
Proof.
  unfold change. rewrite in_map_iff. intros ([r gs] & E & I).
  destruct (text_eqb p r) eqn:Q; injection E as <- <-; exists gs; rewrite Q; auto.
Qed.

Lemma inv_write st past retired must p f : inv st past retired must ->
  (forall g, In (p, g) past -> f_name g = f_name f ->
     (f_mtime g < f_mtime f)%N
     /\ (fingerprint w (c_text (f_content g)) = fingerprint w (c_text (f_content f)) -> f_content g = f_content f)) ->
  ~ retired p (f_name f) (f_content f) ->
  inv (step w st (Write p f)) ((p, f) :: past) retired must.
Proof.
  intros I H NR.
  assert (HF : forall q g, has_file (step w st (Write p f)) q g -> has_file st q g \/ (q = p /\ g = f)).
  { intros q g (fs & Ifs & Ig). cbn in Ifs. apply in_change in Ifs. destruct Ifs as (gs & Igs & ->).
    destruct (text_eqb p q) eqn:Q.
    - apply eqb_true in Q. subst q. apply in_app_or in Ig. destruct Ig as [Ig|[<-|[]]]; auto.
      apply filter_In in Ig. left. exists gs. tauto.
    - left. exists gs. auto. }
  eapply (inv_files st _ past); eauto.
  - apply change_names.
  - intros x Ix. now right.
  - intros q g Hg. destruct (HF q g Hg) as [Hg'|[-> ->]]; [right|now left]. eapply i_files; eauto.
  - intros q g v [Eg|Ig] [Ev|Iv] En Ef.
    + injection Eg as <- <-. now injection Ev as <-.
    + injection Eg as <- <-. symmetry. apply H; auto.
    + injection Ev as <- <-. apply H; auto.
    + eapply i_past; eauto.
  - intros q g v Hg. destruct (HF q g Hg) as [Hg'|[-> ->]]; auto. right. split; auto. intros Iv En. apply H; auto.
Qed.
Lemma inv_remove st past retired must p o n : inv st past retired must -> inv (step w st (Remove p o n)) past retired must.
Proof.
  intros I.
  assert (HF : forall q g, has_file (step w st (Remove p o n)) q g -> has_file st q g).
  { intros q g (fs & Ifs & Ig). cbn in Ifs. apply in_change in Ifs. destruct Ifs as (gs & Igs & ->).
    exists gs. split; auto. destruct (text_eqb p q); auto. apply filter_In in Ig. tauto. }
  eapply (inv_files st _ past); eauto.
  - apply change_names.
  - intros q g Hg. eapply i_files; eauto.
  - apply (i_past _ _ _ _ I).
Qed.

Lemma built_packages st c : compiler st = new_compiler ->
  built w st c false = compile_packages w c false (caches_of st) new_compiler (packages st).
Proof. unfold built, build. intros ->. reflexivity. Qed.

Lemma inv_harmless st past retired must c : inv st past retired must -> (must = true -> should_codegen c true = true) ->
  compiler st = new_compiler -> harmless (built w st c false) ->
  inv (step w st (Build c false)) past retired must.
Proof.
  intros I MC CN [H|H].
  2:{ cbn [step]. rewrite H. apply inv_compiler, I. }
  pose proof (inv_good _ _ _ _ _ I MC) as GOOD.
  assert (ND : NoDup (map fst (packages st))) by (rewrite (i_names _ _ _ _ I); exact NDn).
  rewrite (built_packages st c CN) in H.
  destruct (project_spec w c (caches_of st) (packages st) ND GOOD (packages st) [] new_compiler (caches_of st) eq_refl
    (done_nothing w (caches_of st) (packages st) new_compiler eq_refl)) as (_ & PS & _).
  specialize (PS H). cbn [step]. rewrite (built_packages st c CN).
  set (r := compile_packages w c false (caches_of st) new_compiler (packages st)) in *.
  constructor.
  - apply (i_names _ _ _ _ I).
  - intros p g Hg. apply (i_files _ _ _ _ I p g Hg).
  - apply (i_past _ _ _ _ I).
  - cbn [packages caches_of]. intros k p fs n m NE Rm.
    destruct (PS k p fs NE) as [NDf F]. destruct (F n m Rm) as (f & ds & If & Ef & Pf & Em & Gc & Jf & St & L & V).
    assert (HF : has_file st p f) by (exists fs; split; auto; eapply nth_error_In; eauto).
    assert (ONLY : forall g, has_file st p g -> f_name g = n -> g = f).
    { intros g (gs & Igs & Ig) Eg.
      assert (gs = fs) as -> by (eapply the_files; eauto; [apply (i_names _ _ _ _ I)|eapply nth_error_In; eauto]).
      apply (same_file fs); auto. congruence. }
    destruct V as [[V1 V2]|[V1 V2]].
    + exists f, ds. split; [eapply i_files; eauto|]. repeat (split; [assumption|]). split; auto.
    + destruct (i_entry _ _ _ _ I _ _ _ _ _ NE V1) as (v & ds' & Iv & Ev & Em' & Ef' & Pv & Ei & G & J & S & K & _).
      rewrite V2 in G. injection G as EC <-.
      exists v, ds. rewrite <- EC. split; auto. split; auto. split; auto. split; [congruence|]. split; [congruence|].
      repeat (split; [assumption|]). left. exact L.
Qed.

Lemma inv_root_errors st past retired must c : inv st past retired must -> (must = true -> should_codegen c true = true) ->
  compiler st = new_compiler -> root_errors (packages st) (built w st c false) ->
  inv (step w st (Build c false)) past
    (fun p n x => retired p n x
       \/ ((exists g, In (p, g) past /\ f_name g = n /\ f_content g = x)
           /\ (forall f, has_file st p f -> f_name f = n -> f_content f <> x)))
    (must || should_codegen c true).
Proof.
  intros I MC CN H.
  pose proof (inv_good _ _ _ _ _ I MC) as GOOD.
  assert (ND : NoDup (map fst (packages st))) by (rewrite (i_names _ _ _ _ I); exact NDn).
  rewrite (built_packages st c CN) in H.
  destruct (project_spec w c (caches_of st) (packages st) ND GOOD (packages st) [] new_compiler (caches_of st) eq_refl
    (done_nothing w (caches_of st) (packages st) new_compiler eq_refl)) as (_ & _ & PS).
  specialize (PS H). cbn [step]. rewrite (built_packages st c CN).
  set (r := compile_packages w c false (caches_of st) new_compiler (packages st)) in *.
  constructor.
  - apply (i_names _ _ _ _ I).
  - intros p g Hg. apply (i_files _ _ _ _ I p g Hg).
  - apply (i_past _ _ _ _ I).
  - cbn [packages caches_of]. intros k p fs n m NE Rm.
    specialize (PS k p fs NE).
    assert (ONLY : NoDup (map f_name fs) -> forall f, In f fs -> f_name f = n -> forall g, has_file st p g -> f_name g = n -> g = f).
    { intros NDf f If Ef g (gs & Igs & Ig) Eg.
      assert (gs = fs) as -> by (eapply the_files; eauto; [apply (i_names _ _ _ _ I)|eapply nth_error_In; eauto]).
      apply (same_file fs); auto. congruence. }
    destruct (S k =? length (packages st)) eqn:EK.
    + destruct PS as [NDf F]. destruct (F n m Rm) as (Rm' & Gc & f & If & Ef & V).
      assert (HF : has_file st p f) by (exists fs; split; auto; eapply nth_error_In; eauto).
      destruct (i_entry _ _ _ _ I _ _ _ _ _ NE Rm') as (v & ds & Iv & Ev & Em' & Ef' & Pv & Ei & G & J & S & K & L).
      exists v, ds. split; auto. cbn [caches_of packages]. rewrite Gc. repeat (split; [assumption|]).
      destruct V as [V|[_ V]]; [|left; eapply V; eauto].
      right. destruct (required c (packages st) k && negb (m_codegen m)) eqn:RQ.
      * right. apply andb_prop in RQ. destruct RQ as [RQ1 RQ2]. unfold required in RQ1. rewrite EK in RQ1.
        rewrite RQ1, orb_true_r. split; auto. split; [now apply PeanoNat.Nat.eqb_eq|].
        now destruct (m_codegen m).
      * left. assert (NC : f_content f <> f_content v).
        { intros EC. apply V. exists m. split; [rewrite Ef; exact Rm'|]. split.
          - intros RQ1. rewrite RQ1 in RQ. now destruct (m_codegen m).
          - right. split; [rewrite EC; exact Ef'|]. intros [Q _]. discriminate Q. }
        assert (NCg : forall g, has_file st p g -> f_name g = n -> f_content g <> f_content v).
        { intros g Hg Eg. rewrite (ONLY NDf f If Ef g Hg Eg). exact NC. }
        split; [right|exact NCg]. split; [exists v; auto|exact NCg].
    + destruct PS as [NDf F]. destruct (F n m Rm) as (f & ds & If & Ef & Pf & Em & Gc & Jf & St & L & V).
      assert (HF : has_file st p f) by (exists fs; split; auto; eapply nth_error_In; eauto).
      destruct V as [[V1 V2]|[V1 V2]].
      * exists f, ds. split; [eapply i_files; eauto|]. repeat (split; [assumption|]). split; [|left; exact L].
        intros g Hg Eg. left. eapply ONLY; eauto.
      * destruct (i_entry _ _ _ _ I _ _ _ _ _ NE V1) as (v & ds' & Iv & Ev & Em' & Ef' & Pv & Ei & G & J & S & K & _).
        rewrite V2 in G. injection G as EC <-.
        exists v, ds. rewrite <- EC. split; auto. split; auto. split; auto. split; [congruence|]. split; [congruence|].
        repeat (split; [assumption|]). left. exact L.
Qed.

Lemma careful_inv c es : forall st past retired must, inv st past retired must ->
  careful w st past retired must (es ++ [Build c false]) ->
  exists past' retired' must', inv (steps w st es) past' retired' must'
    /\ compiler (steps w st es) = new_compiler /\ (must' = true -> should_codegen c true = true).
Proof.
  induction es as [|e es IH]; intros st past retired must I.
  - cbn. intros (_ & CN & MC & _). eauto 10.
  - cbn [app]. destruct e as [p f|p o n| |c' lsp|c' lsp k]; cbn [careful]; intros H.
    + destruct H as (H1 & H2 & H3). eapply IH; [|exact H3]. now apply inv_write.
    + eapply IH; [|exact H]. now apply inv_remove.
    + eapply IH; [|exact H]. apply inv_compiler, I.
    + destruct H as (-> & CN & MC & [E|[[H1 H2]|[H1 H2]]]).
      * now destruct es.
      * eapply IH; [|exact H2]. now apply inv_harmless.
      * eapply IH; [|exact H2]. now apply inv_root_errors.
    + destruct H.
Qed.

Lemma inv_start : inv (start names) [] (fun _ _ _ => False) false.
Proof.
  constructor.
  - cbn. rewrite map_map. apply map_id.
  - intros p g (fs & I & J). cbn in I. apply in_map_iff in I. destruct I as (q & E & _). injection E as <- <-. destruct J.
  - easy.
  - cbn. intros k p fs n m _ R. discriminate R.
Qed.

Theorem careful_good es c : careful_history w names (es ++ [Build c false]) ->
  let st := steps w (start names) es in
  NoDup (map fst (packages st)) /\ compiler st = new_compiler
  /\ forall k p fs f, nth_error (packages st) k = Some (p, fs) -> In f fs ->
     usable w (required c (packages st) k) false [] (caches_of st p) f ->
     exists m ds, recorded (caches_of st p) (f_name f) m /\ m_imports m = map fst ds
       /\ parse w (c_text (f_content f)) = Some (map fst ds)
       /\ get (f_name f) (caches (caches_of st p)) = Some (Compiled (f_name f) (f_content f) ds)
       /\ judge w (Compiled (f_name f) (f_content f) ds) = Fine /\ standard w (f_name f) = false
       /\ live (packages st) (caches_of st) k ds.
Proof.
  intros H st. destruct (careful_inv c es _ _ _ _ inv_start H) as (past & retired & must & I & CN & MC). fold st in I, CN.
  split; [rewrite (i_names _ _ _ _ I); exact NDn|]. split; [exact CN|]. eapply inv_good; eauto.
Qed.
End History.
