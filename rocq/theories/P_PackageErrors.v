(** C61: the errors of a package. *)
From Coq Require Import String NArith Bool List.
From Verif Require Import Text TextProofs Incremental IncrementalSpec IncrementalExamples PackageErrorsSpec PackageErrorsProofs.
Import ListNotations.
Local Open Scope list_scope.
Local Open Scope N_scope.

(** If the modules of a package can be loaded (C31 says what is then to be compiled), a module is
    skipped if it imports one that has errors or was skipped; every other one is analysed with
    the results of its imports.  The package has errors if a module has; then nothing is written.
    If there are none, and code can be generated if it has to, the caches and the metadata of all
    modules that were compiled are written, and no others.  The modules that can be imported and
    those that are incomplete are as they were before, except those analysed. *)
Theorem C61_errors_of_a_package :
  forall w codegen lsp s x fs ld,
  let l := run w codegen lsp (incomplete_modules x) s (defined_modules x) (stale_modules x) fs in
  let r := compile_package w codegen lsp s x fs in
  l_loaded l = inl ld ->
  exists old failed skipped,
  let new := importable (p_memory r) in
  (forall n, get n old = match get n (from_cache ld) with Some a => Some a | None => get n (importable x) end)
  /\ (forall before u after, to_compile ld = before ++ u :: after ->
        outcome w old new (incomplete_modules x) (incomplete_modules (p_memory r)) failed skipped before u)
  /\ (forall n, ~ In n (map u_name (to_compile ld)) ->
        get n new = get n old /\ ~ In n failed /\ ~ In n skipped
        /\ (In n (incomplete_modules (p_memory r)) <-> In n (incomplete_modules x)))
  /\ failed = filter (fun n => member n failed) (map u_name (to_compile ld))
  /\ skipped = filter (fun n => member n skipped) (map u_name (to_compile ld))
  /\ p_cached r = from_cache ld
  /\ defined_modules (p_memory r) = l_defined l /\ stale_modules (p_memory r) = l_stale l
  /\ let s1 := applied s (l_ops l) in let s2 := applied s (p_ops r) in
     ((failed <> [] /\ p_result r = inr (TypeErrors failed skipped) /\ p_ops r = l_ops l)
      \/ (failed = [] /\ skipped = [] /\ exists artefacts,
           Forall2 (fun u a => get (u_name u) new = Some a) (to_compile ld) artefacts
           /\ ((codegen = true /\ generates w artefacts = false /\ p_result r = inr CodegenError /\ p_ops r = l_ops l)
               \/ ((codegen = true -> generates w artefacts = true)
                   /\ p_result r = inl (map u_name (to_compile ld))
                   /\ (forall u, In u (to_compile ld) ->
                         get (u_name u) (caches s2) = get (u_name u) new
                         /\ get (u_name u) (metas s2) = Some {| m_mtime := u_mtime u; m_codegen := codegen; m_imports := u_imports u;
                              m_fingerprint := fingerprint w (c_text (u_content u)) |})
                   /\ (forall n, ~ In n (map u_name (to_compile ld)) ->
                         get n (caches s2) = get n (caches s1) /\ get n (metas s2) = get n (metas s1)))))).
Proof. intros w codegen lsp s x fs ld. exact (package_errors w codegen lsp s x fs ld). Qed.
Print Assumptions C61_errors_of_a_package.

(** If they cannot be loaded, nothing is compiled. *)
Theorem C61_nothing_loaded :
  forall w codegen lsp s x fs e,
  let l := run w codegen lsp (incomplete_modules x) s (defined_modules x) (stale_modules x) fs in
  let r := compile_package w codegen lsp s x fs in
  l_loaded l = inr e ->
  p_result r = inr e /\ p_ops r = l_ops l /\ p_cached r = []
  /\ importable (p_memory r) = importable x /\ incomplete_modules (p_memory r) = incomplete_modules x
  /\ defined_modules (p_memory r) = l_defined l /\ stale_modules (p_memory r) = l_stale l.
Proof. intros w codegen lsp s x fs e l r L. unfold r, compile_package. cbv zeta. fold l. rewrite L. auto 10. Qed.
Print Assumptions C61_nothing_loaded.

(** [b] has errors, [c] and [d] are skipped, [e] imports something that is not there. *)
Example C61_errors_of_a_package_example :
  let r := compile_package demo true false empty new_compiler
    [source "a" 1 "1"; source "b" 1 "?a"; source "c" 1 "1b"; source "d" 1 "1ca"; source "e" 1 "1z"; source "f" 1 "1a"] in
  p_result r = inr (TypeErrors [str "b"; str "e"] [str "c"; str "d"])
  /\ p_ops r = []
  /\ map fst (importable (p_memory r)) = [str "f"; str "e"; str "b"; str "a"]
  /\ incomplete_modules (p_memory r) = [str "e"; str "b"].
Proof. vm_compute. auto. Qed.
Example C61_success_example :
  let r := compile_package demo true false empty new_compiler [source "a" 1 "1"; source "b" 1 "1a"] in
  p_result r = inl [str "a"; str "b"]
  /\ map fst (metas (applied empty (p_ops r))) = [str "b"; str "a"].
Proof. vm_compute. auto. Qed.
