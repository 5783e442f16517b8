(** C30, C31, C59, C60: incremental builds. *)
From Coq Require Import String NArith Arith Bool List Lia.
From Verif Require Import Text TextProofs DepTreeSpec Incremental IncrementalSpec IncrementalProofs IncrementalRun IncrementalErrors
  IncrementalSim IncrementalPackage IncrementalAnalysis IncrementalProject IncrementalHistory IncrementalInterrupted IncrementalExamples.
Import ListNotations.
Local Open Scope list_scope.
Local Open Scope N_scope.

(** ** C31 *)

(** In one run the modules compiled are those whose cache is not usable and those that import,
    directly or not, a module that was compiled or removed, and no others.  The others come from
    the cache.  Only the caches of removed and of recompiled modules are deleted. *)
Theorem C31_recompiled_modules :
  forall w codegen_required lsp incomplete s defined stale fs ld,
  let r := run w codegen_required lsp incomplete s defined stale fs in
  let recompiled := recompiled w codegen_required lsp incomplete s stale fs in
  let usable := usable w codegen_required lsp incomplete s in
  l_loaded r = inl ld ->
  (forall n, In n (map u_name (to_compile ld)) <-> recompiled n)
  /\ NoDup (map u_name (to_compile ld))
  /\ (forall u, In u (to_compile ld) -> exists f, In f fs /\ read w f u)
  /\ (forall before u after f l d, to_compile ld = before ++ u :: after -> In f fs -> f_name f = u_name u ->
        known_imports w codegen_required lsp incomplete s f l -> In d l -> ~ In d (map u_name (u :: after)))
  /\ (forall n a, In (n, a) (from_cache ld) <->
        In n (map f_name fs) /\ ~ recompiled n /\ get n (caches s) = Some a)
  /\ NoDup (map fst (from_cache ld))
  /\ (forall n, In n (map f_name fs) -> recompiled n \/ In n (map fst (from_cache ld)))
  /\ (forall n, In n (l_stale r) <-> In n stale \/ gone s fs n \/ recompiled n)
  /\ (forall n, In n (l_defined r) <-> In n defined \/ In n (map f_name fs))
  /\ (forall n, let deleted := gone s fs n \/ exists f, In f fs /\ f_name f = n /\ usable f /\ recompiled n in
        let s' := applied s (l_ops r) in
        (deleted /\ get n (metas s') = None /\ get n (caches s') = None)
        \/ (~ deleted /\ get n (metas s') = get n (metas s) /\ get n (caches s') = get n (caches s)))
  /\ NoDup (map f_name fs)
  /\ (forall f, In f fs -> ~ In (f_name f) defined)
  /\ (forall f, In f fs -> ~ usable f -> standard w (f_name f) = false).
Proof.
  intros w req lsp inc s defined stale fs ld r recompiled usable H.
  destruct (run_spec w req lsp inc s defined stale fs ld H) as (R1 & R2 & R3 & R4 & R5 & R6 & R7 & R8 & R9 & R10).
  destruct (run_standard w req lsp inc s defined stale fs ld H) as (S1 & S2 & S3).
  split; [exact R1|]. split; [exact R2|]. split; [exact R3|]. split.
  { intros before u after f l d E If Ef K Id. apply (R4 before u after f d E If Ef).
    destruct K as [(U & m & Rm & ->)|(U & Pf)]; [left; eauto|right]. split; auto.
    destruct (R3 u) as (g & Ig & Rg). { rewrite E. apply in_or_app. right. now left. }
    assert (g = f) as -> by (apply (same_file fs); auto; destruct Rg; congruence).
    destruct Rg as (_ & _ & _ & Rg). congruence. }
  split; [exact R5|]. split; [exact R6|]. split; [exact R7|]. split; [exact R8|]. split; [exact R9|]. split; auto.
  intros n. destruct (R10 n) as [(A & B & NG & NR)|(A & B & D)].
  - right. split; auto. intros [G|(f & If & Ef & U & R)]; [contradiction|]. exact (NR f If Ef U R).
  - left. auto.
Qed.
Print Assumptions C31_recompiled_modules.

(** A file is changed, a file is removed; what depends on them is compiled and nothing else. *)
Example C31_recompiled_modules_example :
  let st := steps demo (start [root])
    ([Write root (source "a" 1 "1"); Write root (source "b" 1 "1a"); Write root (source "c" 1 "1b");
      Write root (source "d" 1 "1"); Write root (source "e" 1 "1d"); Write root (source "x" 1 "1");
      Write root (source "y" 1 "1x")] ++ build_all
     ++ [Write root (source "b" 2 "2a"); Remove root Src (str "d"); Write root (source "x" 2 "1")]) in
  match l_loaded (run demo true false [] (caches_of st root) [] [] (concat (map snd (packages st)))) with
  | inl ld => (map u_name (to_compile ld), map fst (from_cache ld))
              = ([str "b"; str "c"; str "e"], [str "a"; str "x"; str "y"])
  | inr _ => False
  end.
Proof.
  vm_compute. reflexivity.
Qed.

(** If the run fails, it says why. *)
Theorem C31_why_loading_fails :
  forall w codegen_required lsp incomplete s defined stale fs e,
  l_loaded (run w codegen_required lsp incomplete s defined stale fs) = inr e ->
  match e with
  | ParseError n => exists f, In f fs /\ f_name f = n /\ parse w (c_text (f_content f)) = None
  | DuplicateModule n => exists before f after, fs = before ++ f :: after /\ f_name f = n
      /\ (In n defined \/ In n (map f_name before))
  | StandardErlangModule => exists f, In f fs /\ ~ usable w codegen_required lsp incomplete s f
      /\ standard w (f_name f) = true
  | ImportCycle ns => exists inputs,
      (forall n l, In (n, l) inputs ->
         exists f, In f fs /\ f_name f = n /\ known_imports w codegen_required lsp incomplete s f l)
      /\ import_loop inputs ns
  | MissingCache n => exists f, In f fs /\ f_name f = n /\ usable w codegen_required lsp incomplete s f
      /\ get n (caches s) = None
  | TypeErrors _ _ | CodegenError | Impossible => False
  end.
Proof. exact run_error. Qed.
Print Assumptions C31_why_loading_fails.

Example C31_why_loading_fails_example :
  let fails fs := match l_loaded (run demo true false [] empty [] [] fs) with inr e => Some e | inl _ => None end in
  fails [source "a" 1 "!"] = Some (ParseError (str "a"))
  /\ fails [source "a" 1 "1"; test_source "a" 1 "1"] = Some (DuplicateModule (str "a"))
  /\ fails [source "lists" 1 "1"] = Some StandardErlangModule
  /\ fails [source "a" 1 "1b"; source "b" 1 "1a"] = Some (ImportCycle [str "b"; str "a"]).
Proof. vm_compute. auto. Qed.

(** ** C30 *)

(** In histories as described at [careful] everything loaded from a cache is current: it was
    compiled from the files that are there now, its own and those of all modules it imports,
    directly or not.

    Partial: without these conditions it is false, see below. *)
Theorem C30_loads_current_partial :
  forall w names es c, NoDup names -> careful_history w names (es ++ [Build c false]) ->
  loads_current w (steps w (start names) es) c false.
Proof.
  intros w names es c ND H. set (st := steps w (start names) es).
  destruct (careful_good w names ND es c H) as (NDp & CN & GOOD). fold st in NDp, CN, GOOD.
  intros p cached n a I J. rewrite (built_packages w st c CN) in I.
  destruct (project_spec w c (caches_of st) (packages st) NDp GOOD (packages st) [] new_compiler (caches_of st) eq_refl
    (done_nothing w (caches_of st) (packages st) new_compiler eq_refl)) as (PS & _).
  eauto.
Qed.
Print Assumptions C30_loads_current_partial.

(** A careful history with errors in between.  In the last build two modules of the root package
    come from the cache. *)
Example C30_loads_current_example :
  let st := steps demo (start [lib; root]) ordinary in
  careful_history demo [lib; root] (ordinary ++ [Build All false])
  /\ map (fun e => (fst e, map fst (snd e))) (b_cached (built demo st All false))
     = [(lib, [str "l"]); (root, [str "a"; str "c"])]
  /\ loads_current demo st All false.
Proof.
  split; [exact ordinary_careful|]. split; [vm_compute; reflexivity|].
  apply C30_loads_current_partial; [|exact ordinary_careful].
  repeat constructor; cbn; intros H; repeat destruct H as [H|H]; try discriminate H; contradiction.
Qed.

(** In general it is false.  There are eight different ways to load something outdated; in all
    of them the build succeeds. *)
Definition succeeds_with_outdated (names : list text) (es : list event) (c : codegen) : Prop :=
  let st := steps demo (start names) es in
  b_result (built demo st c false) = inl tt /\ ~ loads_current demo st c false.
Theorem C30_loads_current_refuted :
  exists w names es c, NoDup names /\ b_result (built w (steps w (start names) es) c false) = inl tt
  /\ ~ loads_current w (steps w (start names) es) c false.
Proof.
  exists demo, [root], (removal_forgotten ++ [Start]), All. split.
  - repeat constructor; cbn; tauto.
  - split; [vm_compute; reflexivity|]. apply loads_outdated_true. vm_compute. reflexivity.
Qed.
Print Assumptions C30_loads_current_refuted.

Example C30_ways_to_load_outdated :
  succeeds_with_outdated [root] (removal_forgotten ++ [Start]) All
  /\ succeeds_with_outdated [lib; root] (failed_after_dependency ++ [Start]) All
  /\ succeeds_with_outdated [lib; lib2; root] (failed_in_dependency ++ [Start]) All
  /\ succeeds_with_outdated [root] (older_file ++ [Start]) All
  /\ succeeds_with_outdated [root] (moved_to_test ++ [Start]) All
  /\ succeeds_with_outdated [root] (change_undone ++ [Start]) All
  /\ succeeds_with_outdated [lib; root] codegen_forgotten NoCodegen
  /\ succeeds_with_outdated [root] (interrupted_writing ++ [Start]) All.
Proof.
  repeat match goal with |- _ /\ _ => split | |- succeeds_with_outdated _ _ _ => unfold succeeds_with_outdated; cbv zeta end;
    try (apply loads_outdated_true); vm_compute; reflexivity.
Qed.

(** ** C59 *)

(** In the same histories a build gives what a build without caches gives, if code generation
    cannot fail.

    Partial: without these conditions it is false, see below. *)
Theorem C59_same_as_clean_partial :
  forall w names es c, NoDup names -> careful_history w names (es ++ [Build c false]) ->
  (forall l, generates w l = true) ->
  same_as_clean w (steps w (start names) es) c false.
Proof.
  intros w names es c ND H G. set (st := steps w (start names) es).
  destruct (careful_good w names ND es c H) as (NDp & CN & GOOD). fold st in NDp, CN, GOOD.
  unfold same_as_clean. rewrite (built_packages w st c CN), (built_packages w (cleaned st) c CN).
  apply (clean_same w c (caches_of st) (packages st) NDp GOOD G (packages st) [] new_compiler new_compiler (caches_of st));
    auto. apply done_nothing. reflexivity.
Qed.
Print Assumptions C59_same_as_clean_partial.

Example C59_same_as_clean_example :
  same_as_clean demo (steps demo (start [lib; root]) ordinary) All false.
Proof.
  apply C59_same_as_clean_partial; [|exact ordinary_careful|reflexivity].
  repeat constructor; cbn; intros H; repeat destruct H as [H|H]; try discriminate H; contradiction.
Qed.

(** A build succeeds although the project does not compile: a module that is imported is not
    there.  The same happens in the language server, which keeps modules that were removed. *)
Theorem C59_same_as_clean_refuted :
  exists w names es c, NoDup names
  /\ (forall l, generates w l = true)
  /\ b_result (built w (steps w (start names) es) c false) = inl tt
  /\ (exists p failed skipped, b_result (built w (cleaned (steps w (start names) es)) c false) = inr (p, TypeErrors failed skipped)).
Proof.
  exists demo, [root], (removal_forgotten ++ [Start]), All. split.
  - repeat constructor; cbn; tauto.
  - split; [reflexivity|]. split; [vm_compute; reflexivity|]. eexists _, _, _. vm_compute. reflexivity.
Qed.
Print Assumptions C59_same_as_clean_refuted.

Example C59_in_the_language_server :
  let st := steps demo (start [root]) removed_in_editor in
  b_result (built demo st NoCodegen true) = inl tt
  /\ b_result (built demo (step demo st Start) NoCodegen true) = inr (root, TypeErrors [str "b"] []).
Proof. vm_compute. auto. Qed.

(** ** C60 *)

(** Whatever was built before, a build does not fail because a cache is missing, if no build was
    interrupted between the deletion of a cache and of its metadata.

    Partial: without this condition it is false, see below. *)
Theorem C60_no_missing_cache_partial :
  forall w names es c lsp p n, interrupted_between w (start names) es ->
  b_result (built w (steps w (start names) es) c lsp) <> inr (p, MissingCache n).
Proof. exact no_missing_cache. Qed.
Print Assumptions C60_no_missing_cache_partial.

(** The build which is interrupted while it writes. *)
Example C60_no_missing_cache_example : interrupted_between demo (start [root]) interrupted_writing.
Proof.
  cbv [interrupted_writing build_all app].
  repeat (split; [first [exact I|idtac]|]); [|exact I]. intros p n. vm_compute. discriminate.
Qed.

(** After such an interruption the project cannot be built, however often one tries, although
    nothing is wrong with it. *)
Theorem C60_no_missing_cache_refuted :
  exists w names es p n, NoDup names /\
  (let st := steps w (start names) es in
   b_result (built w (cleaned st) All false) = inl tt
   /\ forall tries, b_result (built w (steps w st (concat (repeat [Build All false; Start] tries))) All false)
                     = inr (p, MissingCache n)).
Proof.
  exists demo, [root], (interrupted_deleting ++ [Start]), root, (str "b"). split.
  - repeat constructor; cbn; tauto.
  - cbv zeta. split; [vm_compute; reflexivity|].
    set (st := steps demo (start [root]) (interrupted_deleting ++ [Start])).
    assert (S : steps demo st [Build All false; Start] = st).
    { assert (O : b_ops (built demo st All false) = []) by (vm_compute; reflexivity).
      assert (C : compiler st = new_compiler) by (vm_compute; reflexivity).
      cbn [steps fold_left step]. rewrite O. cbn [packages caches_of apply_ops fold_left].
      rewrite <- C. destruct st. reflexivity. }
    induction tries as [|tries IH]; [vm_compute; reflexivity|].
    cbn [repeat concat]. unfold steps in *. rewrite fold_left_app, S. exact IH.
Qed.
Print Assumptions C60_no_missing_cache_refuted.
