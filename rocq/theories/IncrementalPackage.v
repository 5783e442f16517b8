(** A package compiled with caches has the same modules as without. *)
From Coq Require Import NArith Bool List Permutation Lia.
From Verif Require Import Text TextProofs DepTree DepTreeSpec DepTreeProofs Incremental IncrementalSpec
  IncrementalProofs IncrementalRun IncrementalSim.
Import ListNotations.
Local Open Scope list_scope.

Section Package.
Variables (w : world) (req : bool) (inc : list text) (s : store) (stale : list text) (env : list (text * artefact)).

(** Usable caches hold what compiling the file would give, unless an import is stale. *)
Definition trusted (fs : list file) : Prop :=
  forall f, In f fs -> usable w req false inc s f ->
  exists m ds, recorded s (f_name f) m /\ m_imports m = map fst ds
    /\ parse w (c_text (f_content f)) = Some (map fst ds)
    /\ get (f_name f) (caches s) = Some (Compiled (f_name f) (f_content f) ds)
    /\ judge w (Compiled (f_name f) (f_content f) ds) = Fine /\ standard w (f_name f) = false
    /\ forall d b, In (d, b) ds ->
         In d stale \/ get d env = Some b \/ ((exists m', recorded s d m') /\ get d (caches s) = Some b).

Definition matches (i ic : input) : Prop :=
  exists u, ic = New u
  /\ (i = New u
      \/ exists f imports, i = Cached f imports /\ read w f u /\ imports = u_imports u /\ standard w (u_name u) = false).

Lemma load_matches f fs reqc incc : trusted fs -> In f fs ->
  match load w req false inc s f with
  | inr e => load w reqc false incc empty f = inr e
  | inl i => exists ic, load w reqc false incc empty f = inl ic /\ matches i ic
  end.
Proof.
  intros T I. unfold load at 2 3. cbn [empty metas get].
  destruct (load w req false inc s f) as [[u|g imports]|e] eqn:L.
  - pose proof (proj1 (load_new _ _ _ _ _ _ _) L) as [_ R]. apply read_source_ok in R. unfold read_new. rewrite R.
    exists (New u). split; auto. exists u. auto.
  - apply load_cached in L. destruct L as (-> & U & m & Rm & -> & _).
    destruct (T f I U) as (m' & ds & Rm' & Em & Pf & _ & _ & St & _).
    assert (m' = m) as -> by (unfold recorded in *; congruence).
    unfold read_new, read_source. rewrite Pf. eexists. split; [reflexivity|]. eexists. split; [reflexivity|].
    right. exists f, (m_imports m). split; auto. cbn. split; auto. unfold read. cbn. auto.
  - apply load_error in L. unfold read_new. now rewrite L.
Qed.
Lemma load_files_matches reqc incc fs : forall defined, trusted fs ->
  match load_files w req false inc s defined fs with
  | inr e => load_files w reqc false incc empty defined fs = inr e
  | inl (d, is) => exists isc, load_files w reqc false incc empty defined fs = inl (d, isc) /\ Forall2 matches is isc
  end.
Proof.
  induction fs as [|f fs IH]; intros defined T; cbn [load_files].
  { exists []. auto. }
  pose proof (load_matches f (f :: fs) reqc incc T (or_introl eq_refl)) as L.
  destruct (load w req false inc s f) as [i|e].
  2:{ now rewrite L. }
  destruct L as (ic & -> & M). destruct (member (f_name f) defined); [reflexivity|].
  assert (T' : trusted fs) by (intros g Ig; apply T; now right).
  specialize (IH (f_name f :: defined) T').
  destruct (load_files w req false inc s (f_name f :: defined) fs) as [[d is]|e].
  - destruct IH as (isc & -> & F). exists (ic :: isc). auto.
  - now rewrite IH.
Qed.

Lemma matches_name i ic : matches i ic -> input_name i = input_name ic /\ input_imports i = input_imports ic
  /\ overwrites w i = overwrites w ic.
Proof.
  intros (u & -> & [->|(f & imports & -> & R & -> & S)]); auto. cbn. split; [symmetry; apply R|]. auto.
Qed.
Lemma matches_entries is isc : Forall2 matches is isc -> entries is = entries isc
  /\ existsb (overwrites w) is = existsb (overwrites w) isc.
Proof.
  induction 1 as [|i ic is isc M F [IH1 IH2]]; auto. destruct (matches_name i ic M) as (A & B & C).
  unfold entries in *. cbn. split; congruence.
Qed.
Lemma matches_find n is isc : Forall2 matches is isc ->
  match find_input n is with
  | None => find_input n isc = None
  | Some i => exists ic, find_input n isc = Some ic /\ matches i ic
  end.
Proof.
  unfold find_input. induction 1 as [|i ic is isc M F IH]; cbn; auto.
  destruct (matches_name i ic M) as (A & _). rewrite <- A. destruct (text_eqb (input_name i) n); eauto.
Qed.
End Package.

(** Without caches everything is compiled, in the order of the sequence. *)
Lemma processes_news w is : forall l s stale, (forall n, In n l -> exists u, find_input n is = Some (New u)) ->
  exists os stale' us, processes w is l s stale os stale' {| to_compile := us; from_cache := [] |}
    /\ Forall2 (fun n u => find_input n is = Some (New u)) l us.
Proof.
  induction l as [|n l IH]; intros s stale H.
  - exists [], stale, []. split; constructor.
  - destruct (H n (or_introl eq_refl)) as (u & U).
    destruct (IH s (u_name u :: stale)) as (os & st & us & P & F). { intros m I. apply H. now right. }
    exists os, st, (u :: us). split; [|now constructor].
    apply (processes_new w is n l s stale os st {| to_compile := us; from_cache := [] |} u U P).
Qed.
(** With good caches there is no error. *)
Lemma processes_total w is : forall l s stale, NoDup l ->
  (forall n, In n l -> (exists u, find_input n is = Some (New u))
     \/ (exists f imports u a, find_input n is = Some (Cached f imports) /\ read w f u /\ get n (caches s) = Some a)) ->
  exists os stale' ld, processes w is l s stale os stale' ld.
Proof.
  induction l as [|n l IH]; intros s stale ND H.
  - exists [], stale. eexists. constructor.
  - inversion ND as [|? ? N1 N2]; subst.
    destruct (H n (or_introl eq_refl)) as [(u & U)|(f & imports & u & a & F & R & G)].
    + destruct (IH s (u_name u :: stale)) as (os & st & ld & P); auto. { intros m I. apply H. now right. }
      eexists _, _, _. eapply processes_new; eauto.
    + pose proof (found_name _ _ _ F) as E. cbn in E.
      destruct (existsb (fun d => member d stale) imports) eqn:S.
      * apply any_stale in S. destruct S as (d & Id & Sd).
        destruct (IH (applied s (delete (f_name f))) (f_name f :: stale)) as (os & st & ld & P); auto.
        { intros m I. destruct (H m (or_intror I)) as [K|(g & imps & v & b & Fg & Rg & Gb)]; auto.
          right. exists g, imps, v, b. split; auto. split; auto. rewrite delete_caches.
          destruct (text_eqb (f_name f) m) eqn:Q; auto. apply eqb_true in Q. congruence. }
        eexists _, _, _. eapply processes_stale; eauto.
      * pose proof (proj1 (none_stale _ _) S) as NS.
        destruct (IH s stale) as (os & st & ld & P); auto. { intros m I. apply H. now right. }
        eexists _, _, _. rewrite <- E in G. eapply processes_cached; eauto.
Qed.

Definition with_cached (env : list (text * artefact)) (fc : list (text * artefact)) : list (text * artefact) :=
  fold_left (fun env '(n, a) => insert n a env) fc env.
Lemma with_cached_get fc : forall env n, NoDup (map fst fc) ->
  get n (with_cached env fc) = match get n fc with Some a => Some a | None => get n env end.
Proof.
  unfold with_cached. induction fc as [|[m a] fc IH]; intros env n ND; cbn [fold_left get]; auto.
  inversion ND as [|? ? N1 N2]; subst. rewrite IH by auto. rewrite get_insert. cbn in N1.
  destruct (text_eqb m n) eqn:E; auto. apply eqb_true in E. subst m.
  destruct (get n fc) eqn:G; auto. destruct N1. apply get_in in G. now apply in_map with (f := fst) in G.
Qed.

Theorem package_sim w req inc s defined stale env fs reqc incc stalec :
  trusted w req inc s stale env fs ->
  (forall n a, get n env = Some a -> In n defined) ->
  let ri := run w req false inc s defined stale fs in
  let rc := run w reqc false incc empty defined stalec fs in
  match l_loaded ri with
  | inr e => l_loaded rc = inr e
  | inl ld =>
      exists us, l_loaded rc = inl {| to_compile := us; from_cache := [] |} /\ l_defined rc = l_defined ri
      /\ (forall u, In u us -> exists f, In f fs /\ read w f u)
      /\ forall envc, (forall n, get n envc = get n env) ->
         let yi := analyse w (with_cached env (from_cache ld)) inc (to_compile ld) in
         let yc := analyse w envc incc us in
         alike yc yi /\ (forall n, get n (a_env yi) = get n (a_env yc))
         /\ (forall n a, In (n, a) (from_cache ld) ->
               (exists u, In (u, a) (a_modules yc) /\ u_name u = n) /\ get n (a_env yc) = Some a)
  end.
Proof.
  intros T DOM ri rc. subst ri rc. unfold run.
  pose proof (load_files_matches w req inc s stale env reqc incc fs defined T) as LM.
  destruct (load_files w req false inc s defined fs) as [[d is]|e] eqn:L.
  2:{ rewrite LM. reflexivity. }
  destruct LM as (isc & LC & M). rewrite LC. fold (entries is) (entries isc).
  destruct (matches_entries w is isc M) as [EE OO]. rewrite <- EE, <- OO.
  destruct (existsb (overwrites w) is) eqn:O; [reflexivity|].
  apply load_files_ok in L. destruct L as (F & ND & D & Def).
  pose proof (loads_names w req false inc s fs is F) as EN.
  assert (NDi : NoDup (map input_name is)) by (now rewrite EN).
  destruct (toposort_deps (sorted_by_name (entries is))) as [order|[names|]] eqn:TS; [|reflexivity|reflexivity].
  destruct (toposort_deps_first is order NDi TS) as (PO & NDO & DF).
  fold (deletes (removed s is)) (deletes (removed empty isc)).
  assert (INP : forall n i, find_input n is = Some i -> exists f, In f fs /\ f_name f = n /\ load w req false inc s f = inl i).
  { intros n i Fi. apply find_input_some in Fi. destruct Fi as [I <-].
    destruct (loads_file w req false inc s fs is i F I) as (f & If & Lf). exists f. split; auto. split; auto. now apply load_name in Lf. }
  assert (FND : forall n, In n order -> exists i, find_input n is = Some i).
  { intros n I. eapply Permutation_in in I; [|exact PO]. apply in_map_iff in I. destruct I as (i & <- & Ii).
    exists i. now apply find_input_in. }
  assert (NAME : forall n, In n order <-> In n (map f_name fs)).
  { intros n. rewrite <- EN. split; intros I; (eapply Permutation_in; [|exact I]); [exact PO|apply Permutation_sym, PO]. }
  assert (NG : forall n, In n order -> member n (removed s is) = false).
  { intros n I. apply member_false. rewrite (removed_gone s fs is n EN). intros [_ K]. apply K. now apply NAME. }
  assert (OLD : forall n f imports, find_input n is = Some (Cached f imports) ->
            In f fs /\ f_name f = n /\ usable w req false inc s f
            /\ exists m ds, recorded s n m /\ imports = map fst ds
               /\ parse w (c_text (f_content f)) = Some (map fst ds)
               /\ get n (caches s) = Some (Compiled n (f_content f) ds)
               /\ judge w (Compiled n (f_content f) ds) = Fine
               /\ forall d b, In (d, b) ds ->
                    In d stale \/ get d env = Some b \/ ((exists m', recorded s d m') /\ get d (caches s) = Some b)).
  { intros n f imports Fn. destruct (INP _ _ Fn) as (g & Ig & <- & Lg). apply load_cached in Lg.
    destruct Lg as (-> & U & m & Rm & -> & _). split; auto. split; auto. split; auto.
    destruct (T g Ig U) as (m' & ds & Rm' & Em & Pf & Gc & Jc & St & K).
    assert (m' = m) as -> by (unfold recorded in *; congruence).
    exists m, ds. auto 10. }
  (* with caches *)
  destruct (processes_total w is order (applied s (deletes (removed s is))) (rev (removed s is) ++ stale) NDO)
    as (os & st & ld & P).
  { intros n I. destruct (FND n I) as ([u|f imports] & Fi); [left; eauto|right].
    destruct (OLD _ _ _ Fi) as (If & Ef & U & m & ds & Rm & Ei & Pf & Gc & _).
    exists f, imports, {| u_name := f_name f; u_mtime := f_mtime f; u_content := f_content f; u_imports := map fst ds |}, (Compiled n (f_content f) ds).
    split; auto. split; [unfold read; cbn; auto|]. rewrite deletes_caches, NG; auto. }
  pose proof (proj2 (process_ok _ _ _ _ _ _ _ _) P) as PE. rewrite PE. cbn [l_loaded l_defined].
  (* without caches *)
  destruct (processes_news w isc order (applied empty (deletes (removed empty isc))) (rev (removed empty isc) ++ stalec))
    as (osc & stc & us & PC & FU).
  { intros n I. pose proof (matches_find w n is isc M) as MF. destruct (FND n I) as (i & Fi). rewrite Fi in MF.
    destruct MF as (ic & Fc & u & -> & _). eauto. }
  pose proof (proj2 (process_ok _ _ _ _ _ _ _ _) PC) as PCE. rewrite PCE. cbn [l_loaded l_defined].
  exists us. split; auto. split; auto.
  assert (FR : Forall2 (reads w fs) order us).
  { assert (KK : forall l us, Forall2 (fun n u => find_input n isc = Some (New u)) l us -> (forall n, In n l -> In n order) -> Forall2 (reads w fs) l us).
    { clear PC PCE FU us. induction 1 as [|n u l us Fu FU IH]; intros SUB; constructor.
      - pose proof (matches_find w n is isc M) as MF. destruct (FND n (SUB n (or_introl eq_refl))) as (i & Fi).
        rewrite Fi in MF. destruct MF as (ic & Fc & u' & -> & Mu). assert (u' = u) as -> by congruence.
        destruct (INP _ _ Fi) as (f & If & Ef & Lf). exists f. split; auto. split; auto.
        destruct Mu as [->|(g & imports & -> & Rg & _)].
        + apply load_new in Lf. apply Lf.
        + apply load_cached in Lf. destruct Lf as (-> & _). exact Rg.
      - apply IH. intros m I. apply SUB. now right. }
    apply (KK order us FU). auto. }
  split.
  { intros u I. clear - FR I. induction FR as [|n v l us (f & If & _ & Rf) FR IH]; [easy|]. destruct I as [->|I]; eauto. }
  intros envc EC.
  assert (NDf : NoDup (map fst (from_cache ld))).
  { pose proof (proc_perm w is _ _ _ _ _ _ P) as PP.
    apply (nodup_app (map u_name (to_compile ld)) (map fst (from_cache ld))). eapply Permutation_NoDup; eauto. }
  unfold analyse.
  cbv zeta.
  refine (sim w fs is ND _ _ order _ _ _ _ ld P NDO DF us _ _ FR _ _ _ _ _).
  - intros n u Fn. destruct (INP _ _ Fn) as (f & If & Ef & Lf). apply load_new in Lf. exists f. split; [exact If|]. split; [exact Ef|apply Lf].
  - intros n f imports Fn. destruct (OLD _ _ _ Fn) as (If & Ef & U & m & ds & Rm & -> & Pf & _). auto.
  - split; reflexivity.
  - intros n. cbn [a_env]. rewrite with_cached_get by auto. now rewrite EC.
  - cbn. tauto.
  - intros n I. cbn [a_env]. rewrite EC. destruct (get n env) eqn:G; auto. apply DOM in G.
    apply NAME in I. apply in_map_iff in I. destruct I as (f & <- & If). destruct (D f If G).
  - intros n f imports I Fn. destruct (OLD _ _ _ Fn) as (If & Ef & U & m & ds & Rm & Ei & Pf & Gc & Jc & K).
    exists ds. split; auto. split; [rewrite deletes_caches, NG; auto|]. split; auto.
    intros d' b Id. cbn [a_env]. rewrite EC. destruct (K d' b Id) as [Q|[Q|[(m' & Q1) Q2]]].
    + left. apply in_or_app. now right.
    + auto.
    + destruct (member d' (map f_name fs)) eqn:MD.
      * apply member_true in MD. right. right. split; [now apply NAME|].
        rewrite deletes_caches, NG; auto. now apply NAME.
      * apply member_false in MD. left. apply in_or_app. left. apply -> in_rev.
        apply (removed_gone s fs is d' EN). split; eauto.
Qed.
