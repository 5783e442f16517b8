(** Proofs about the errors of a package. *)
From Coq Require Import Bool List.
From Verif Require Import Text TextProofs Incremental IncrementalProofs IncrementalSpec IncrementalRun IncrementalSim IncrementalPackage
  IncrementalAnalysis PackageErrorsSpec.
Import ListNotations.
Local Open Scope list_scope.

Lemma resolved_found (sees : text -> artefact -> Prop) env imports : (forall d a, get d env = Some a <-> sees d a) ->
  resolved sees imports (found env imports).
Proof.
  intros H. induction imports as [|d ds IH]; [constructor|]. cbn. destruct (get d env) as [a|] eqn:G; cbn.
  - constructor; auto. now apply H.
  - constructor; auto. intros a Sa. apply H in Sa. congruence.
Qed.
Lemma resolved_ext (p q : text -> artefact -> Prop) imports l : (forall d a, p d a <-> q d a) -> resolved p imports l -> resolved q imports l.
Proof.
  intros H. induction 1 as [|d a ds l K R IH|d ds l K R IH]; [constructor| |].
  - constructor; auto. now apply H.
  - constructor; auto. intros a Q. apply H in Q. exact (K a Q).
Qed.

Definition incomplete_after (w : world) (x : analysis) (u : uncompiled) : list text :=
  if skips x u then a_incomplete x
  else match judged w (a_env x) u (made x u) with
       | Fine => filter (fun n => negb (text_eqb n (u_name u))) (a_incomplete x)
       | Faulty => u_name u :: a_incomplete x
       | Hopeless => a_incomplete x
       end.
Lemma incomplete_ok w x u : a_incomplete (analyse_module w x u) = incomplete_after w x u.
Proof.
  unfold analyse_module, incomplete_after. fold (skips x u). destruct (skips x u); auto.
  fold (made x u). cbv zeta. now destruct (judged w (a_env x) u (made x u)).
Qed.

Lemma modules_known (f g : text -> option artefact) us (ms : list (uncompiled * artefact)) :
  (forall v, In v us -> g (u_name v) = f (u_name v)) ->
  Forall2 (fun u m => fst m = u /\ f (u_name u) = Some (snd m)) us ms ->
  Forall2 (fun u m => fst m = u /\ g (u_name u) = Some (snd m)) us ms.
Proof.
  intros P Q. induction Q as [|v m vs ms H F IH]; constructor.
  - rewrite P; auto. now left.
  - apply IH. intros z I. apply P. now right.
Qed.

Section Analysis.
Variables (w : world) (old : list (text * artefact)) (incomplete : list text).

Definition begin : analysis :=
  {| a_env := old; a_incomplete := incomplete; a_modules := []; a_failed := []; a_skipped := [] |}.

Definition names_of (us : list uncompiled) (l : list text) : Prop := l = filter (fun n => member n l) (map u_name us).

Record result (us : list uncompiled) (x : analysis) : Prop := {
  outcomes : forall before u after, us = before ++ u :: after ->
    outcome w old (a_env x) incomplete (a_incomplete x) (a_failed x) (a_skipped x) before u;
  others : forall n, ~ In n (map u_name us) ->
    get n (a_env x) = get n old /\ ~ In n (a_failed x) /\ ~ In n (a_skipped x) /\ (In n (a_incomplete x) <-> In n incomplete);
  failed_order : names_of us (a_failed x);
  skipped_order : names_of us (a_skipped x);
  all_modules : a_failed x = [] ->
    a_skipped x = [] /\ Forall2 (fun u m => fst m = u /\ get (u_name u) (a_env x) = Some (snd m)) us (a_modules x) }.

Lemma names_of_in us l n : names_of us l -> In n l -> In n (map u_name us).
Proof. intros E I. rewrite E in I. apply filter_In in I. tauto. Qed.
Lemma names_of_keep us l u : names_of us l -> ~ In (u_name u) (map u_name us) -> names_of (us ++ [u]) l.
Proof.
  intros E N. unfold names_of. rewrite map_app, filter_app, <- E. cbn.
  destruct (member (u_name u) l) eqn:M; [|now rewrite app_nil_r].
  apply member_true in M. destruct (N (names_of_in _ _ _ E M)).
Qed.
Lemma names_of_add us l u : names_of us l -> ~ In (u_name u) (map u_name us) -> names_of (us ++ [u]) (l ++ [u_name u]).
Proof.
  intros E N. unfold names_of. rewrite map_app, filter_app. cbn.
  assert (member (u_name u) (l ++ [u_name u]) = true) as -> by (apply member_true, in_or_app; right; now left).
  f_equal. rewrite E at 1. apply filter_ext_in. intros n I.
  destruct (member n l) eqn:A; destruct (member n (l ++ [u_name u])) eqn:B; auto.
  - apply member_true in A. assert (In n (l ++ [u_name u])) as C by (apply in_or_app; now left).
    apply member_true in C. congruence.
  - apply member_true in B. apply in_app_or in B. destruct B as [B|[B|[]]].
    + apply member_true in B. congruence.
    + subst n. contradiction.
Qed.

Lemma sees_keep before new new' d a : (forall n, In n (map u_name before) -> get n new' = get n new) ->
  sees before old new d a <-> sees before old new' d a.
Proof.
  intros H. unfold sees. split; (intros [(I & G)|(I & G)]; [left|right]; split; auto).
  - now rewrite H.
  - now rewrite H in G.
Qed.

(** The outcome of earlier modules stays. *)
Lemma outcome_keep new new' inc inc' failed failed' skipped skipped' before u :
  outcome w old new incomplete inc failed skipped before u ->
  (forall n, In n (map u_name (before ++ [u])) ->
     get n new' = get n new /\ (In n inc' <-> In n inc) /\ (In n failed' <-> In n failed) /\ (In n skipped' <-> In n skipped)) ->
  outcome w old new' incomplete inc' failed' skipped' before u.
Proof.
  intros [O1 O2 O3] K.
  assert (KU := K (u_name u)). destruct KU as (U1 & U2 & U3 & U4).
  { rewrite map_app. apply in_or_app. right. now left. }
  assert (KB : forall n, In n (map u_name before) -> get n new' = get n new /\ (In n failed' <-> In n failed) /\ (In n skipped' <-> In n skipped)).
  { intros n I. destruct (K n) as (A & _ & B); auto. rewrite map_app. apply in_or_app. now left. }
  assert (KS : forall d a, sees before old new d a <-> sees before old new' d a).
  { intros d a. apply sees_keep. intros n I. apply KB, I. }
  constructor.
  - rewrite U4, O1. split; intros (d & I & J & F); exists d; (split; [exact I|split; [exact J|]]); destruct (KB d J) as (_ & A & B); tauto.
  - intros N. rewrite U4 in N. apply O2 in N. rewrite U1, U2, U3. exact N.
  - intros N. rewrite U4 in N. destruct (O3 N) as (ds & R & C). exists ds. cbv zeta in *. split.
    + apply (resolved_ext (sees before old new)); auto.
    + assert (AT : (forall d, In d (u_imports u) -> exists b, sees before old new d b)
                   <-> (forall d, In d (u_imports u) -> exists b, sees before old new' d b)).
      { split; intros H d I; destruct (H d I) as (b & Sb); exists b; now apply KS. }
      rewrite U1. destruct (judge w _); rewrite ?U2, ?U3; auto. destruct C as (C1 & C2 & C3). split; auto. rewrite C2, C3, AT. tauto.
Qed.

Lemma analyse_result us : NoDup (map u_name us) -> result us (fold_left (analyse_module w) us begin).
Proof.
  induction us as [|u us IH] using rev_ind; intros ND.
  { constructor; cbn; auto; try reflexivity.
    - intros before u after E. destruct before; discriminate E.
    - tauto. }
  rewrite map_app in ND. cbn in ND. apply NoDup_remove in ND. rewrite app_nil_r in ND. destruct ND as [ND NU].
  specialize (IH ND). rewrite fold_left_app. cbn [fold_left].
  set (x := fold_left (analyse_module w) us begin) in *. destruct IH as [IO IT IF IS IM].
  pose proof (analyse_module_ok w x u) as AM. pose proof (incomplete_ok w x u) as IN.
  destruct (IT (u_name u) NU) as (T1 & T2 & T3 & T4).
  set (y := analyse_module w x u) in *.
  (* what does not change *)
  assert (K : forall n, n <> u_name u -> get n (a_env y) = get n (a_env x) /\ (In n (a_incomplete y) <-> In n (a_incomplete x))
    /\ (In n (a_failed y) <-> In n (a_failed x)) /\ (In n (a_skipped y) <-> In n (a_skipped x))).
  { intros n NE. split; [|split; [|split]].
    - destruct AM as [y S E M F K|y S J E M F K|y S J E M F K|y S J E M F K]; rewrite E; auto;
        rewrite get_insert; (destruct (text_eqb (u_name u) n) eqn:Q; auto); apply eqb_true in Q; congruence.
    - rewrite IN. unfold incomplete_after. destruct (skips x u); [tauto|]. destruct (judged _ _ _ _); [|cbn; intuition congruence|tauto].
      rewrite filter_In. destruct (text_eqb n (u_name u)) eqn:Q; [apply eqb_true in Q; congruence|]. cbn. tauto.
    - destruct AM as [y S E M F K|y S J E M F K|y S J E M F K|y S J E M F K]; rewrite F, ?in_app_iff; cbn; intuition congruence.
    - destruct AM as [y S E M F K|y S J E M F K|y S J E M F K|y S J E M F K]; rewrite K, ?in_app_iff; cbn; intuition congruence. }
  assert (KS : forall d a, get d (a_env x) = Some a <-> sees us old (a_env y) d a).
  { intros d a. destruct (in_dec text_eq_dec d (map u_name us)) as [I|I].
    - destruct (K d) as (G & _); [intros ->; contradiction|]. unfold sees. rewrite G. tauto.
    - destruct (IT d I) as (G & _). unfold sees. rewrite G. tauto. }
  assert (SK : skips x u = true <-> exists d, In d (u_imports u) /\ In d (map u_name us) /\ (In d (a_failed y) \/ In d (a_skipped y))).
  { rewrite skips_true. split.
    - intros (d & I & J). exists d. split; auto.
      assert (In d (map u_name us)) as L by (destruct J as [J|J]; [apply (names_of_in _ _ _ IF J)|apply (names_of_in _ _ _ IS J)]).
      split; auto. destruct (K d) as (_ & _ & A & B); [intros ->; contradiction|]. tauto.
    - intros (d & I & L & J). exists d. split; auto. destruct (K d) as (_ & _ & A & B); [intros ->; contradiction|]. tauto. }
  constructor.
  - intros before v after E. destruct after as [|z after' _] using rev_ind.
    + apply app_inj_tail in E. destruct E as [<- <-]. 
      (* the new one *)
      assert (ALL : forallb (fun d => match get d (a_env x) with Some _ => true | None => false end) (u_imports u) = true
                    <-> forall d, In d (u_imports u) -> exists b, sees us old (a_env y) d b).
      { rewrite forallb_forall. split; intros H d I; specialize (H d I).
        - destruct (get d (a_env x)) as [b|] eqn:G; [|discriminate H]. exists b. now apply KS.
        - destruct H as (b & Sb). apply KS in Sb. now rewrite Sb. }
      assert (RS : resolved (sees us old (a_env y)) (u_imports u) (found (a_env x) (u_imports u))) by now apply resolved_found.
      unfold incomplete_after in IN.
      destruct AM as [y S E M F K'|y S J E M F K'|y S J E M F K'|y S J E M F K']; rewrite S in IN; try (rewrite J in IN; unfold judged in J).
      * constructor; [| |].
        -- rewrite <- SK. rewrite K', in_app_iff. cbn. tauto.
        -- intros _. rewrite F, E, IN. auto.
        -- intros N. destruct N. rewrite K'. apply in_or_app. right. now left.
      * constructor; [| |].
        -- rewrite <- SK, K'. split; [contradiction|congruence].
        -- intros I. rewrite K' in I. contradiction.
        -- intros _. exists (found (a_env x) (u_imports u)). cbv zeta. split; auto.
           fold (made x u). destruct (judge w (made x u)) eqn:JJ; try discriminate J.
           destruct (forallb _ (u_imports u)); [|discriminate J]. assert (get (u_name u) (a_env y) = Some (made x u)) as G by now rewrite E, get_insert, eqb_same.
           rewrite F, IN. split; auto.
           assert (A : forall d, In d (u_imports u) -> exists b, sees us old (a_env y) d b) by now apply ALL.
           split; [split; [contradiction|intros Z; contradiction]|]. rewrite filter_In, eqb_same. cbn. split; [intros [_ Z]; discriminate Z|intros Z; contradiction].
      * constructor; [| |].
        -- rewrite <- SK, K'. split; [contradiction|congruence].
        -- intros I. rewrite K' in I. contradiction.
        -- intros _. exists (found (a_env x) (u_imports u)). cbv zeta. split; auto.
           fold (made x u). destruct (judge w (made x u)) eqn:JJ; try discriminate J.
           ++ destruct (forallb _ (u_imports u)) eqn:FA; [discriminate J|]. assert (get (u_name u) (a_env y) = Some (made x u)) as G by now rewrite E, get_insert, eqb_same.
           rewrite F, IN. split; auto.
              assert (A : ~ forall d, In d (u_imports u) -> exists b, sees us old (a_env y) d b).
              { intros Z. apply ALL in Z. congruence. }
              rewrite in_app_iff. cbn. tauto.
           ++ assert (get (u_name u) (a_env y) = Some (made x u)) as G by now rewrite E, get_insert, eqb_same.
           rewrite F, IN, in_app_iff. cbn. tauto.
      * constructor; [| |].
        -- rewrite <- SK, K'. split; [contradiction|congruence].
        -- intros I. rewrite K' in I. contradiction.
        -- intros _. exists (found (a_env x) (u_imports u)). cbv zeta. split; auto.
           fold (made x u). destruct (judge w (made x u)) eqn:JJ.
           ++ destruct (forallb _ (u_imports u)) eqn:FA; discriminate J.
           ++ discriminate J.
           ++ rewrite E, F, IN, in_app_iff. cbn. tauto.
    + rewrite app_comm_cons, app_assoc in E. apply app_inj_tail in E. destruct E as [E <-].
      apply (outcome_keep (a_env x) _ (a_incomplete x) _ (a_failed x) _ (a_skipped x)); [now apply (IO _ _ after')|].
      intros n I. apply K. intros ->. apply NU. rewrite E. rewrite map_app in I |- *. cbn in I |- *.
      apply in_app_or in I. apply in_or_app. destruct I as [I|[I|[]]]; [now left|right; now left].
  - intros n N. rewrite map_app, in_app_iff in N. cbn in N.
    assert (n <> u_name u) as NE by (intros ->; tauto). assert (~ In n (map u_name us)) as NI by tauto.
    destruct (K n NE) as (A & B & C & D). destruct (IT n NI) as (A' & C' & D' & B'). rewrite A, B, C, D. auto.
  - destruct AM as [y S E M F K'|y S J E M F K'|y S J E M F K'|y S J E M F K']; rewrite F;
      solve [now apply names_of_keep|now apply names_of_add].
  - destruct AM as [y S E M F K'|y S J E M F K'|y S J E M F K'|y S J E M F K']; rewrite K';
      solve [now apply names_of_keep|now apply names_of_add].
  - intros FY.
    assert (KF : Forall2 (fun u m => fst m = u /\ get (u_name u) (a_env x) = Some (snd m)) us (a_modules x) ->
                 Forall2 (fun u m => fst m = u /\ get (u_name u) (a_env y) = Some (snd m)) us (a_modules x)).
    { assert (P : forall v, In v us -> get (u_name v) (a_env y) = get (u_name v) (a_env x)).
      { intros v I. apply K. intros Z. apply NU. rewrite <- Z. now apply in_map. }
      exact (modules_known (fun n => get n (a_env x)) (fun n => get n (a_env y)) us (a_modules x) P). }
    destruct AM as [y S E M F K'|y S J E M F K'|y S J E M F K'|y S J E M F K'].
    + rewrite F in FY. destruct (IM FY) as [SX MX]. exfalso. apply skips_true in S. destruct S as (d & _ & [I|I]).
      * rewrite FY in I. destruct I.
      * rewrite SX in I. destruct I.
    + rewrite F in FY. destruct (IM FY) as [SX MX]. rewrite K', M. split; auto.
      apply Forall2_app; auto. constructor; [|constructor]. cbn. split; auto. now rewrite E, get_insert, eqb_same.
    + rewrite F in FY. destruct (a_failed x); discriminate FY.
    + rewrite F in FY. destruct (a_failed x); discriminate FY.
Qed.
End Analysis.

(** ** Packages *)
Lemma env_from_cache (c : list (text * artefact)) : forall env n, NoDup (map fst c) ->
  get n (fold_left (fun env '(n, a) => insert n a env) c env) = match get n c with Some a => Some a | None => get n env end.
Proof.
  induction c as [|[k a] c IH]; intros env n ND; cbn [fold_left get]; auto.
  cbn in ND. inversion ND as [|? ? N1 N2]; subst. rewrite IH by auto. rewrite get_insert.
  destruct (text_eqb k n) eqn:Q; auto. apply eqb_true in Q. subst k.
  destruct (get n c) as [b|] eqn:G; auto. apply get_in in G. destruct N1. now apply (in_map fst) in G.
Qed.

Lemma modules_artefacts env us (ms : list (uncompiled * artefact)) :
  Forall2 (fun u m => fst m = u /\ get (u_name u) env = Some (snd m)) us ms ->
  Forall2 (fun u a => get (u_name u) env = Some a) us (map snd ms)
  /\ map (fun m => u_name (fst m)) ms = map u_name us
  /\ forall u, In u us -> exists b, In (u, b) ms /\ get (u_name u) env = Some b.
Proof.
  induction 1 as [|v m us ms [E G] F (I1 & I2 & I3)]; cbn; [repeat split; auto; easy|].
  split; [constructor; auto|]. split; [congruence|]. intros u [->|I].
  - exists (snd m). split; auto. left. rewrite <- E. now destruct m.
  - destruct (I3 u I) as (b & J & Gb). eauto.
Qed.

Section Package.
Variables (w : world) (req lsp : bool) (s : store) (x : memory) (fs : list file) (ld : loaded).
Notation l := (run w req lsp (incomplete_modules x) s (defined_modules x) (stale_modules x) fs).
Notation r := (compile_package w req lsp s x fs).
Hypothesis L : l_loaded l = inl ld.

Theorem package_errors : exists old failed skipped,
  let new := importable (p_memory r) in
  (forall n, get n old = match get n (from_cache ld) with Some a => Some a | None => get n (importable x) end)
  /\ (forall before u after, to_compile ld = before ++ u :: after ->
        outcome w old new (incomplete_modules x) (incomplete_modules (p_memory r)) failed skipped before u)
  /\ (forall n, ~ In n (map u_name (to_compile ld)) ->
        get n new = get n old /\ ~ In n failed /\ ~ In n skipped
        /\ (In n (incomplete_modules (p_memory r)) <-> In n (incomplete_modules x)))
  /\ failed = filter (fun n => member n failed) (map u_name (to_compile ld))
  /\ skipped = filter (fun n => member n skipped) (map u_name (to_compile ld))
  /\ p_cached r = from_cache ld
  /\ defined_modules (p_memory r) = l_defined l /\ stale_modules (p_memory r) = l_stale l
  /\ let s1 := applied s (l_ops l) in let s2 := applied s (p_ops r) in
     ((failed <> [] /\ p_result r = inr (TypeErrors failed skipped) /\ p_ops r = l_ops l)
      \/ (failed = [] /\ skipped = [] /\ exists artefacts,
           Forall2 (fun u a => get (u_name u) new = Some a) (to_compile ld) artefacts
           /\ ((req = true /\ generates w artefacts = false /\ p_result r = inr CodegenError /\ p_ops r = l_ops l)
               \/ ((req = true -> generates w artefacts = true)
                   /\ p_result r = inl (map u_name (to_compile ld))
                   /\ (forall u, In u (to_compile ld) ->
                         get (u_name u) (caches s2) = get (u_name u) new
                         /\ get (u_name u) (metas s2) = Some {| m_mtime := u_mtime u; m_codegen := req; m_imports := u_imports u;
                              m_fingerprint := fingerprint w (c_text (u_content u)) |})
                   /\ (forall n, ~ In n (map u_name (to_compile ld)) ->
                         get n (caches s2) = get n (caches s1) /\ get n (metas s2) = get n (metas s1)))))).
Proof.
  destruct (run_spec _ _ _ _ _ _ _ _ _ L) as (_ & ND & _ & _ & _ & NDc & _).
  set (old := fold_left (fun env '(n, a) => insert n a env) (from_cache ld) (importable x)).
  pose proof (analyse_result w old (incomplete_modules x) (to_compile ld) ND) as R.
  assert (AN : fold_left (analyse_module w) (to_compile ld) (begin old (incomplete_modules x))
               = analyse w old (incomplete_modules x) (to_compile ld)) by reflexivity.
  rewrite AN in R. clear AN.
  set (a := analyse w old (incomplete_modules x) (to_compile ld)) in *.
  assert (M : importable (p_memory r) = a_env a /\ incomplete_modules (p_memory r) = a_incomplete a
              /\ defined_modules (p_memory r) = l_defined l /\ stale_modules (p_memory r) = l_stale l /\ p_cached r = from_cache ld).
  { unfold compile_package. cbv zeta. rewrite L. fold old. fold a.
    destruct (a_failed a); [destruct (_ && _)|]; cbn; auto. }
  destruct M as (M1 & M2 & M3 & M4 & M5).
  destruct R as [RO RT RF RS RM].
  exists old, (a_failed a), (a_skipped a). cbv zeta. rewrite M1, M2.
  split; [intros n; now apply env_from_cache|]. split; [exact RO|]. split; [exact RT|]. split; [exact RF|].
  split; [exact RS|]. split; [exact M5|]. split; [exact M3|]. split; [exact M4|].
  unfold compile_package. cbv zeta. rewrite L. fold old. fold a.
  destruct (a_failed a) as [|n ns] eqn:F.
  - right. destruct (RM eq_refl) as [SK MO]. split; auto. split; auto. exists (map snd (a_modules a)). 
    destruct (modules_artefacts _ _ _ MO) as (MA & EN & MI). split; [exact MA|].
    destruct (req && negb (generates w (map snd (a_modules a)))) eqn:C; cbn [p_result p_ops].
    + left. apply andb_prop in C. destruct C as [C1 C2]. apply negb_true_iff in C2. auto.
    + right. split.
      { intros Q. rewrite Q in C. cbn in C. now apply negb_false_iff in C. }
      split; [now rewrite EN|]. rewrite applied_app. split.
      * intros u I.
        destruct (MI u I) as (b & J & G).
        destruct (written_module w req (a_modules a) (applied s (l_ops l)) u b) as [A B]; auto; [now rewrite EN|].
        rewrite G. split; auto.
      * intros n N. rewrite <- EN in N. destruct (written_other w req _ (applied s (l_ops l)) n N). auto.
  - left. cbn. split; [discriminate|]. auto.
Qed.
End Package.
