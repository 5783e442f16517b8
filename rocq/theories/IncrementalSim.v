(** A package compiled with caches and without. *)
From Coq Require Import NArith Bool List Permutation Lia.
From Verif Require Import Text TextProofs DepTree DepTreeSpec DepTreeProofs Incremental IncrementalSpec
  IncrementalProofs IncrementalRun.
Import ListNotations.
Local Open Scope list_scope.

(** ** Analysis *)
Lemma found_ext e1 e2 l : (forall d, In d l -> get d e1 = get d e2) -> found e1 l = found e2 l.
Proof.
  unfold found. induction l as [|d l IH]; intros H; cbn; auto.
  rewrite (H d (or_introl eq_refl)), IH; auto. intros x I. apply H. now right.
Qed.
Lemma found_all env ds : (forall d b, In (d, b) ds -> get d env = Some b) -> found env (map fst ds) = ds.
Proof.
  unfold found. induction ds as [|[d b] ds IH]; intros H; cbn; auto.
  rewrite (H d b (or_introl eq_refl)), IH; auto. intros x c I. apply H. now right.
Qed.
Lemma found_in env l d b : In (d, b) (found env l) -> In d l /\ get d env = Some b.
Proof.
  unfold found. rewrite in_flat_map. intros (x & I & J). destruct (get x env) eqn:E; [|destruct J].
  destruct J as [J|[]]. injection J as <- <-. auto.
Qed.
Lemma found_names env l : (forall d, In d l -> exists b, get d env = Some b) -> map fst (found env l) = l.
Proof.
  unfold found. induction l as [|d l IH]; intros H; cbn; auto.
  destruct (H d (or_introl eq_refl)) as (b & ->). cbn. f_equal. apply IH. intros x I. apply H. now right.
Qed.
Definition all_found (env : list (text * artefact)) (l : list text) : bool :=
  forallb (fun d => match get d env with Some _ => true | None => false end) l.
Lemma all_found_true env l : all_found env l = true <-> forall d, In d l -> exists b, get d env = Some b.
Proof.
  unfold all_found. rewrite forallb_forall. split; intros H d I; specialize (H d I).
  - destruct (get d env); eauto. discriminate H.
  - now destruct H as (b & ->).
Qed.
Lemma judged_ext w e1 e2 u a : (forall d, In d (u_imports u) -> get d e1 = get d e2) -> judged w e1 u a = judged w e2 u a.
Proof.
  intros H. unfold judged. destruct (judge w a); auto.
  replace (forallb _ (u_imports u)) with (all_found e1 (u_imports u)) by reflexivity.
  replace (forallb (fun d => match get d e2 with Some _ => true | None => false end) (u_imports u))
    with (all_found e2 (u_imports u)) by reflexivity.
  replace (all_found e1 (u_imports u)) with (all_found e2 (u_imports u)); auto.
  unfold all_found. induction (u_imports u) as [|d l IH]; cbn; auto.
  rewrite (H d (or_introl eq_refl)), IH; auto. intros x I. apply H. now right.
Qed.
Lemma judged_fine w env u a : judged w env u a = Fine <->
  judge w a = Fine /\ forall d, In d (u_imports u) -> exists b, get d env = Some b.
Proof.
  unfold judged. rewrite <- all_found_true. fold (all_found env (u_imports u)).
  destruct (judge w a); try (split; [discriminate|now intros [H _]]).
  destruct (all_found env (u_imports u)); split; easy.
Qed.

Definition skips (x : analysis) (u : uncompiled) : bool :=
  existsb (fun d => member d (a_failed x) || member d (a_skipped x)) (u_imports u).
Lemma skips_true x u : skips x u = true <-> exists d, In d (u_imports u) /\ (In d (a_failed x) \/ In d (a_skipped x)).
Proof.
  unfold skips. rewrite existsb_exists. split; intros (d & I & J); exists d; split; auto.
  - apply orb_prop in J. now rewrite !member_true in J.
  - apply orb_true_intro. now rewrite !member_true.
Qed.
Lemma skips_false x u : skips x u = false <-> forall d, In d (u_imports u) -> ~ In d (a_failed x) /\ ~ In d (a_skipped x).
Proof.
  split.
  - intros E d I. split; intros J; (assert (skips x u = true) by (apply skips_true; eauto)); congruence.
  - intros H. destruct (skips x u) eqn:E; auto. apply skips_true in E. destruct E as (d & I & J).
    destruct (H d I). tauto.
Qed.
Definition made (x : analysis) (u : uncompiled) : artefact :=
  Compiled (u_name u) (u_content u) (found (a_env x) (u_imports u)).

(** What the environment, the failed and the skipped modules are after one module. *)
Inductive analysed (w : world) (x : analysis) (u : uncompiled) : analysis -> Prop :=
| was_skipped y : skips x u = true -> a_env y = a_env x -> a_modules y = a_modules x -> a_failed y = a_failed x ->
    a_skipped y = a_skipped x ++ [u_name u] -> analysed w x u y
| was_fine y : skips x u = false -> judged w (a_env x) u (made x u) = Fine ->
    a_env y = insert (u_name u) (made x u) (a_env x) -> a_modules y = a_modules x ++ [(u, made x u)] ->
    a_failed y = a_failed x -> a_skipped y = a_skipped x -> analysed w x u y
| was_faulty y : skips x u = false -> judged w (a_env x) u (made x u) = Faulty ->
    a_env y = insert (u_name u) (made x u) (a_env x) -> a_modules y = a_modules x ++ [(u, made x u)] ->
    a_failed y = a_failed x ++ [u_name u] -> a_skipped y = a_skipped x -> analysed w x u y
| was_hopeless y : skips x u = false -> judged w (a_env x) u (made x u) = Hopeless ->
    a_env y = a_env x -> a_modules y = a_modules x ->
    a_failed y = a_failed x ++ [u_name u] -> a_skipped y = a_skipped x -> analysed w x u y.
Lemma analyse_module_ok w x u : analysed w x u (analyse_module w x u).
Proof.
  unfold analyse_module. fold (skips x u). destruct (skips x u) eqn:S.
  { apply was_skipped; auto. }
  fold (made x u). destruct (judged w (a_env x) u (made x u)) eqn:J.
  - apply was_fine; auto.
  - apply was_faulty; auto.
  - apply was_hopeless; auto.
Qed.

(** Two states that know the same. *)
Definition alike (x y : analysis) : Prop :=
  a_failed x = a_failed y /\ a_skipped x = a_skipped y.
Lemma analyse_alike w x y u : alike x y -> (forall d, In d (u_imports u) -> get d (a_env x) = get d (a_env y)) ->
  alike (analyse_module w x u) (analyse_module w y u)
  /\ ((exists a, a_env (analyse_module w x u) = insert (u_name u) a (a_env x)
              /\ a_env (analyse_module w y u) = insert (u_name u) a (a_env y))
      \/ (a_env (analyse_module w x u) = a_env x /\ a_env (analyse_module w y u) = a_env y)).
Proof.
  intros [F S] E. unfold analyse_module. fold (skips x u) (skips y u).
  assert (skips x u = skips y u) as -> by (unfold skips; now rewrite F, S).
  destruct (skips y u); [split; [split; cbn; congruence|now right]|].
  rewrite (found_ext _ _ _ E), (judged_ext _ _ _ _ _ E).
  destruct (judged _ _ _ _); cbn; (split; [split; cbn; congruence|]); eauto.
Qed.

(** Names that fail or are skipped. *)
Lemma analyse_names w x u n :
  (In n (a_failed (analyse_module w x u)) -> In n (a_failed x) \/ n = u_name u)
  /\ (In n (a_skipped (analyse_module w x u)) -> In n (a_skipped x) \/ n = u_name u).
Proof.
  destruct (analyse_module_ok w x u) as [y S E M F K|y S J E M F K|y S J E M F K|y S J E M F K]; rewrite F, K;
    rewrite ?in_app_iff; cbn; intuition congruence.
Qed.
Lemma analyse_grows w x u n :
  (In n (a_failed x) -> In n (a_failed (analyse_module w x u)))
  /\ (In n (a_skipped x) -> In n (a_skipped (analyse_module w x u)))
  /\ (forall v a, In (v, a) (a_modules x) -> In (v, a) (a_modules (analyse_module w x u))).
Proof.
  destruct (analyse_module_ok w x u) as [y S E M F K|y S J E M F K|y S J E M F K|y S J E M F K]; rewrite F, K, M;
    (split; [|split]); try (intros; apply in_or_app; now left); auto.
Qed.
Lemma analyse_all_grow w us : forall x,
  (forall n, In n (a_failed x) -> In n (a_failed (fold_left (analyse_module w) us x)))
  /\ (forall v a, In (v, a) (a_modules x) -> In (v, a) (a_modules (fold_left (analyse_module w) us x))).
Proof.
  induction us as [|u us IH]; intros x; cbn; [auto|]. destruct (IH (analyse_module w x u)) as [A B]. split.
  - intros n I. apply A. now apply (analyse_grows w x u n).
  - intros v a I. apply B. now apply (analyse_grows w x u []).
Qed.
Lemma analyse_all_names w us : forall x n, In n (a_failed (fold_left (analyse_module w) us x)) ->
  In n (a_failed x) \/ In n (map u_name us).
Proof.
  induction us as [|u us IH]; intros x n; cbn; [auto|]. intros I. destruct (IH _ _ I) as [J|J]; auto.
  apply (analyse_names w x u n) in J. destruct J as [J| ->]; auto.
Qed.

(** ** With and without caches *)
Definition reads (w : world) (fs : list file) (n : text) (u : uncompiled) : Prop :=
  exists f, In f fs /\ f_name f = n /\ read w f u.

Section Sim.
Variables (w : world) (fs : list file) (is : list input).
Hypothesis NDfs : NoDup (map f_name fs).
(** Inputs come from the files. *)
Hypothesis news : forall n u, find_input n is = Some (New u) -> reads w fs n u.
Hypothesis olds : forall n f imports, find_input n is = Some (Cached f imports) ->
  In f fs /\ f_name f = n /\ parse w (c_text (f_content f)) = Some imports.

Lemma reads_unique n u v : reads w fs n u -> reads w fs n v -> u = v.
Proof.
  intros (f & If & Ef & Rf) (g & Ig & Eg & Rg). assert (f = g) as <-.
  { apply (same_file fs); auto. congruence. }
  eapply read_unique; eauto.
Qed.

Definition cache_good (s : store) (stale l : list text) (env : list (text * artefact)) : Prop :=
  forall n f imports, In n l -> find_input n is = Some (Cached f imports) ->
  exists ds, imports = map fst ds /\ get n (caches s) = Some (Compiled n (f_content f) ds)
    /\ judge w (Compiled n (f_content f) ds) = Fine
    /\ forall d b, In (d, b) ds -> In d stale \/ get d env = Some b \/ (In d l /\ get d (caches s) = Some b).

Lemma sim l s stale os stale' ld : processes w is l s stale os stale' ld ->
  NoDup l -> deps_first is l -> forall usc xc xi,
  Forall2 (reads w fs) l usc ->
  alike xc xi ->
  (forall n, get n (a_env xi) = match get n (from_cache ld) with Some a => Some a | None => get n (a_env xc) end) ->
  (forall n, In n (a_failed xc) \/ In n (a_skipped xc) -> In n stale) ->
  (forall n, In n l -> get n (a_env xc) = None) ->
  cache_good s stale l (a_env xc) ->
  let yc := fold_left (analyse_module w) usc xc in
  let yi := fold_left (analyse_module w) (to_compile ld) xi in
  alike yc yi /\ (forall n, get n (a_env yi) = get n (a_env yc))
  /\ (forall n a, In (n, a) (from_cache ld) ->
        (exists u, In (u, a) (a_modules yc) /\ u_name u = n) /\ get n (a_env yc) = Some a).
Proof.
  induction 1 as [s stale|n l s stale os stale' ld u F P IH|n l s stale os stale' ld f imports d u F D S R P IH
                 |n l s stale os stale' ld f imports a F D G P IH]; cbn [to_compile from_cache]; intros ND DF usc xc xi RU AL ENV FS FR CG.
  - inversion RU; subst. cbn. cbn in ENV. split; [exact AL|]. split; [exact ENV|easy].
  - inversion RU as [|? u' ? usc' Ru RU']; subst. assert (u' = u) as -> by (eapply reads_unique; eauto).
    pose proof (found_name _ _ _ F) as E. cbn in E. inversion ND as [|? ? N1 N2]; subst. destruct DF as [DF1 DF].
    assert (FCN : get (u_name u) (from_cache ld) = None).
    { destruct (get (u_name u) (from_cache ld)) eqn:K; auto. destruct N1.
      eapply Permutation_in; [apply Permutation_sym; eapply proc_perm; eassumption|]. apply in_or_app. right.
      apply get_in in K. now apply in_map with (f := fst) in K. }
    assert (IMP : forall d, In d (u_imports u) -> get d (a_env xi) = get d (a_env xc)).
    { intros d I. rewrite ENV. destruct (get d (from_cache ld)) eqn:K; auto. destruct (DF1 _ d F I). right.
      eapply Permutation_in; [apply Permutation_sym; eapply proc_perm; eassumption|]. apply in_or_app. right.
      apply get_in in K. now apply in_map with (f := fst) in K. }
    assert (alike xi xc) as AL' by (destruct AL; split; congruence).
    destruct (analyse_alike w xi xc u AL' IMP) as [AL1 EE]. cbn [fold_left].
    apply IH; auto.
    + destruct AL1; split; congruence.
    + intros m. destruct EE as [(b & Ei & Ec)|[Ei Ec]]; rewrite Ei, Ec; [|apply ENV].
      rewrite !get_insert. destruct (text_eqb (u_name u) m) eqn:K; [|apply ENV].
      apply eqb_true in K. subst m. now rewrite FCN.
    + intros m I. cbn. pose proof (analyse_names w xc u m) as [A1 A2]. pose proof (FS m) as Fm.
      destruct I as [I|I]; [apply A1 in I|apply A2 in I]; intuition auto.
    + intros m I. destruct EE as [(b & Ei & Ec)|[Ei Ec]]; rewrite Ec; [|apply FR; now right].
      rewrite get_insert. destruct (text_eqb (u_name u) m) eqn:K; [|apply FR; now right].
      apply eqb_true in K. subst m. contradiction.
    + intros m g imports I Fm. destruct (CG m g imports (or_intror I) Fm) as (ds & Eds & Gm & Jm & Km).
      exists ds. split; auto. split; auto. split; auto. intros d b Id. destruct (text_dec (u_name u) d) as [<-|Nd].
      { left. now left. }
      destruct (Km d b Id) as [K|[K|[[K|K] K2]]].
      * left. now right.
      * right. left. destruct EE as [(c & Ei & Ec)|[Ei Ec]]; rewrite Ec; auto. rewrite get_insert.
        apply eqb_false in Nd. now rewrite Nd.
      * contradiction.
      * auto.
  - inversion RU as [|? u' ? usc' Ru RU']; subst.
    destruct (olds _ _ _ F) as (If & Ef & Pf).
    assert (u' = u) as -> by (eapply reads_unique; [exact Ru|]; exists f; auto).
    pose proof (found_name _ _ _ F) as E. cbn in E. inversion ND as [|? ? N1 N2]; subst. destruct DF as [DF1 DF].
    assert (u_name u = f_name f) as Eu by apply R.
    assert (u_imports u = imports) as Eim by (destruct R as (_ & _ & _ & R); congruence).
    assert (FCN : get (u_name u) (from_cache ld) = None).
    { destruct (get (u_name u) (from_cache ld)) eqn:K; auto. destruct N1. rewrite <- Eu.
      eapply Permutation_in; [apply Permutation_sym; eapply proc_perm; eassumption|]. apply in_or_app. right.
      apply get_in in K. now apply in_map with (f := fst) in K. }
    assert (IMP : forall d, In d (u_imports u) -> get d (a_env xi) = get d (a_env xc)).
    { intros d' I. rewrite ENV. destruct (get d' (from_cache ld)) eqn:K; auto. rewrite Eim in I. destruct (DF1 _ d' F I). right.
      eapply Permutation_in; [apply Permutation_sym; eapply proc_perm; eassumption|]. apply in_or_app. right.
      apply get_in in K. now apply in_map with (f := fst) in K. }
    assert (alike xi xc) as AL' by (destruct AL; split; congruence).
    destruct (analyse_alike w xi xc u AL' IMP) as [AL1 EE]. cbn [fold_left].
    apply IH; auto.
    + destruct AL1; split; congruence.
    + intros m. destruct EE as [(b & Ei & Ec)|[Ei Ec]]; rewrite Ei, Ec; [|apply ENV].
      rewrite !get_insert. destruct (text_eqb (u_name u) m) eqn:K; [|apply ENV].
      apply eqb_true in K. subst m. now rewrite FCN.
    + intros m I. cbn. pose proof (analyse_names w xc u m) as [A1 A2]. pose proof (FS m) as Fm.
      destruct I as [I|I]; [apply A1 in I|apply A2 in I]; (destruct I as [I| ->]; [right; auto|left; congruence]).
    + intros m I. destruct EE as [(b & Ei & Ec)|[Ei Ec]]; rewrite Ec; [|apply FR; now right].
      rewrite get_insert. destruct (text_eqb (u_name u) m) eqn:K; [|apply FR; now right].
      apply eqb_true in K. subst m. rewrite Eu in I. contradiction.
    + assert (CS : forall m, m <> f_name f -> get m (caches (applied s (delete (f_name f)))) = get m (caches s)).
      { intros m Nm. rewrite delete_caches. destruct (text_eqb (f_name f) m) eqn:K; auto. apply eqb_true in K. congruence. }
      intros m g imports' I Fm. destruct (CG m g imports' (or_intror I) Fm) as (ds & Eds & Gm & Jm & Km).
      exists ds. split; auto. split.
      { rewrite CS; auto. intros ->. contradiction. }
      split; auto. intros d' b Id. destruct (text_dec (f_name f) d') as [<-|Nd].
      { left. now left. }
      destruct (Km d' b Id) as [K|[K|[[K|K] K2]]].
      * left. now right.
      * right. left. destruct EE as [(c & Ei & Ec)|[Ei Ec]]; rewrite Ec; auto. rewrite get_insert.
        rewrite <- Eu in Nd. apply eqb_false in Nd. now rewrite Nd.
      * contradiction.
      * right. right. split; auto. rewrite CS; auto.
  - inversion RU as [|? u ? usc' Ru RU']; subst.
    destruct (olds _ _ _ F) as (If & Ef & Pf).
    assert (read w f u) as R.
    { destruct Ru as (g & Ig & Eg & Rg). assert (g = f) as -> by (apply (same_file fs); auto; congruence). exact Rg. }
    pose proof (found_name _ _ _ F) as E. cbn in E. inversion ND as [|? ? N1 N2]; subst. destruct DF as [DF1 DF].
    assert (u_name u = f_name f) as Eu by apply R.
    assert (u_content u = f_content f) as Ec by apply R.
    assert (u_imports u = imports) as Eim by (destruct R as (_ & _ & _ & R); congruence).
    destruct (CG _ _ _ (or_introl eq_refl) F) as (ds & Eds & Gd & Jd & Kd).
    rewrite G in Gd. injection Gd as ->.
    assert (DS : forall d b, In (d, b) ds -> get d (a_env xc) = Some b).
    { intros d b I. assert (Id : In d imports) by (rewrite Eds; now apply in_map with (f := fst) in I).
      destruct (Kd d b I) as [K|[K|[K _]]]; auto; exfalso; [exact (D d Id K)|exact (DF1 _ d F Id K)]. }
    set (a := Compiled (f_name f) (f_content f) ds) in *.
    assert (MA : made xc u = a).
    { unfold made, a. rewrite Eu, Ec, Eim, Eds, (found_all _ _ DS). reflexivity. }
    assert (SK : skips xc u = false).
    { apply skips_false. rewrite Eim. intros d Id. split; intros J; apply (D d Id), FS; auto. }
    assert (JF : judged w (a_env xc) u (made xc u) = Fine).
    { rewrite MA. apply judged_fine. split; [exact Jd|]. rewrite Eim. intros d Id. rewrite Eds in Id.
      apply in_map_iff in Id. destruct Id as ([d' b] & <- & I). eauto. }
    assert (FCN : get (f_name f) (from_cache ld) = None).
    { destruct (get (f_name f) (from_cache ld)) eqn:K; auto. destruct N1.
      eapply Permutation_in; [apply Permutation_sym; eapply proc_perm; eassumption|]. apply in_or_app. right.
      apply get_in in K. now apply in_map with (f := fst) in K. }
    cbn [fold_left].
    destruct (analyse_module_ok w xc u) as [y S EE M FF KK|y S J EE M FF KK|y S J EE M FF KK|y S J EE M FF KK];
      try congruence. rewrite MA, Eu in EE. rewrite MA in M.
    destruct (IH N2 DF usc' y xi RU') as (I1 & I2 & I3).
    + destruct AL; split; congruence.
    + intros m. rewrite ENV, EE, get_insert. cbn [get]. destruct (text_eqb (f_name f) m) eqn:K; auto.
      apply eqb_true in K. subst m. now rewrite FCN.
    + rewrite FF, KK. exact FS.
    + intros m I. rewrite EE, get_insert. destruct (text_eqb (f_name f) m) eqn:K; [|apply FR; now right].
      apply eqb_true in K. subst m. contradiction.
    + intros m g imports' I Fm. destruct (CG m g imports' (or_intror I) Fm) as (ds' & Eds' & Gm & Jm & Km).
      exists ds'. split; auto. split; auto. split; auto. intros d b Id. rewrite EE, get_insert.
      destruct (text_eqb (f_name f) d) eqn:K.
      * apply eqb_true in K. subst d. destruct (Km _ b Id) as [K|[K|[_ K]]]; auto.
        -- rewrite FR in K by (now left). discriminate K.
        -- right. left. congruence.
      * destruct (Km d b Id) as [Q|[Q|[[Q|Q] Q2]]]; auto. apply eqb_false in K. contradiction.
    + split; [exact I1|]. split; [exact I2|]. intros m b [Eq|I]; [|auto]. injection Eq as <- <-. split.
      * exists u. split; [|exact Eu]. destruct (analyse_all_grow w usc' y) as [_ AG]. apply AG. rewrite M.
        apply in_or_app. right. now left.
      * assert (KEEP : forall us x, (forall v, In v us -> u_name v <> f_name f) ->
                  get (f_name f) (a_env (fold_left (analyse_module w) us x)) = get (f_name f) (a_env x)).
        { clear. induction us as [|v us IH]; intros x H; cbn; auto. rewrite IH by (intros; apply H; now right).
          destruct (analyse_module_ok w x v) as [y S E M F K|y S J E M F K|y S J E M F K|y S J E M F K]; rewrite E; auto;
            rewrite get_insert; (destruct (text_eqb (u_name v) (f_name f)) eqn:Q; auto);
            apply eqb_true in Q; destruct (H v (or_introl eq_refl) Q). }
        rewrite KEEP, EE, get_insert, eqb_same; auto.
        intros v Iv Ev. apply N1. clear - RU' Iv Ev.
        induction RU' as [|n v' l us' (g & _ & Eg & Rg) RU IH]; [easy|]. destruct Iv as [->|Iv]; [|right; auto].
        left. destruct Rg as (Rg & _). congruence.
Qed.
End Sim.
