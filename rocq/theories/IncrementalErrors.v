(** Why loading fails. *)
From Coq Require Import NArith Bool List Permutation Lia.
From Verif Require Import Text TextProofs DepTree DepTreeSpec DepTreeProofs Incremental IncrementalSpec
  IncrementalProofs IncrementalRun.
Import ListNotations.
Local Open Scope list_scope.

Lemma load_error_parse w req lsp inc s f e : load w req lsp inc s f = inr e ->
  e = ParseError (f_name f) /\ parse w (c_text (f_content f)) = None.
Proof.
  intros H. apply load_error in H. unfold read_source in H. destruct (parse w _); [discriminate|].
  now injection H as <-.
Qed.
Lemma load_files_error w req lsp inc s fs : forall defined e, load_files w req lsp inc s defined fs = inr e ->
  (exists f, In f fs /\ e = ParseError (f_name f) /\ parse w (c_text (f_content f)) = None)
  \/ (exists before f after, fs = before ++ f :: after /\ e = DuplicateModule (f_name f)
        /\ (In (f_name f) defined \/ In (f_name f) (map f_name before))).
Proof.
  induction fs as [|f fs IH]; intros defined e; cbn [load_files]; [discriminate|].
  destruct (load w req lsp inc s f) as [i|e0] eqn:L.
  - destruct (member (f_name f) defined) eqn:M.
    + intros H. injection H as <-. right. exists [], f, fs. apply member_true in M. auto.
    + destruct (load_files w req lsp inc s (f_name f :: defined) fs) as [[d is]|e0] eqn:R; [discriminate|].
      intros H. injection H as ->. destruct (IH _ _ R) as [(g & Ig & K)|(b & g & a & -> & -> & K)].
      * left. exists g. split; [now right|exact K].
      * right. exists (f :: b), g, a. split; auto. split; auto. cbn in *. tauto.
  - intros H. injection H as ->. apply load_error_parse in L. left. exists f. split; [now left|exact L].
Qed.
Lemma process_error w is l : forall s stale os stale' e, NoDup l -> (forall n, In n l -> exists i, find_input n is = Some i) ->
  process w is l s stale = (os, stale', inr e) ->
  (exists n f imports, In n l /\ find_input n is = Some (Cached f imports)
     /\ e = ParseError (f_name f) /\ parse w (c_text (f_content f)) = None)
  \/ (exists n f imports, In n l /\ find_input n is = Some (Cached f imports)
     /\ e = MissingCache (f_name f) /\ get (f_name f) (caches s) = None).
Proof.
  induction l as [|n l IH]; intros s stale os stale' e ND FI; cbn [process]; [discriminate|].
  inversion ND as [|? ? N1 N2]; subst.
  assert (FI' : forall n, In n l -> exists i, find_input n is = Some i) by (intros m I; apply FI; now right).
  assert (LIFT : forall s', (forall m, In m l -> get m (caches s') = get m (caches s)) ->
     (exists m f imports, In m l /\ find_input m is = Some (Cached f imports)
     /\ e = ParseError (f_name f) /\ parse w (c_text (f_content f)) = None)
     \/ (exists m f imports, In m l /\ find_input m is = Some (Cached f imports)
     /\ e = MissingCache (f_name f) /\ get (f_name f) (caches s') = None) ->
     (exists m f imports, In m (n :: l) /\ find_input m is = Some (Cached f imports)
     /\ e = ParseError (f_name f) /\ parse w (c_text (f_content f)) = None)
     \/ (exists m f imports, In m (n :: l) /\ find_input m is = Some (Cached f imports)
     /\ e = MissingCache (f_name f) /\ get (f_name f) (caches s) = None)).
  { intros s' Hs [(m & f & i & I & K)|(m & f & i & I & F & E & K)].
    - left. exists m, f, i. split; [now right|exact K].
    - right. exists m, f, i. split; [now right|]. split; auto. split; auto. rewrite <- Hs; auto.
      apply find_input_some in F. destruct F as [_ F]. cbn in F. now rewrite F. }
  destruct (FI n (or_introl eq_refl)) as ([u|f imports] & F); rewrite F.
  - destruct (process w is l s (u_name u :: stale)) as [[os1 st1] [ld1|e1]] eqn:P; [discriminate|].
    intros H. injection H as _ _ ->. apply (LIFT s); auto. eapply IH; eauto.
  - destruct (existsb _ imports).
    + destruct (read_source w f) as [u|e1] eqn:R.
      * destruct (process w is l _ _) as [[os1 st1] [ld1|e1]] eqn:P; [discriminate|].
        intros H. injection H as _ _ ->. apply (LIFT (applied s (delete (f_name f)))); [|eapply IH; eauto].
        intros m I. rewrite delete_caches. destruct (text_eqb (f_name f) m) eqn:Q; auto.
        apply eqb_true in Q. apply find_input_some in F. destruct F as [_ F]. cbn in F. congruence.
      * intros H. injection H as _ _ <-. left. exists n, f, imports. split; [now left|]. split; auto.
        unfold read_source in R. destruct (parse w _); [discriminate|]. now injection R as <-.
    + destruct (get (f_name f) (caches s)) as [a|] eqn:G.
      * destruct (process w is l s stale) as [[os1 st1] [ld1|e1]] eqn:P; [discriminate|].
        intros H. injection H as _ _ ->. apply (LIFT s); auto. eapply IH; eauto.
      * intros H. injection H as _ _ <-. right. exists n, f, imports. split; [now left|]. auto.
Qed.

Theorem run_error w req lsp inc s defined stale fs e : l_loaded (run w req lsp inc s defined stale fs) = inr e ->
  match e with
  | ParseError n => exists f, In f fs /\ f_name f = n /\ parse w (c_text (f_content f)) = None
  | DuplicateModule n => exists before f after, fs = before ++ f :: after /\ f_name f = n
      /\ (In n defined \/ In n (map f_name before))
  | StandardErlangModule => exists f, In f fs /\ ~ usable w req lsp inc s f /\ standard w (f_name f) = true
  | ImportCycle ns => exists inputs,
      (forall n l, In (n, l) inputs -> exists f, In f fs /\ f_name f = n /\ known_imports w req lsp inc s f l)
      /\ import_loop inputs ns
  | MissingCache n => exists f, In f fs /\ f_name f = n /\ usable w req lsp inc s f /\ get n (caches s) = None
  | TypeErrors _ _ | CodegenError | Impossible => False
  end.
Proof.
  unfold run. destruct (load_files w req lsp inc s defined fs) as [[d is]|e0] eqn:L.
  2:{ cbn. intros H. injection H as ->. apply load_files_error in L.
      destruct L as [(f & If & -> & K)|(b & f & a & -> & -> & K)].
      - exists f. auto.
      - exists b, f, a. auto. }
  apply load_files_ok in L. destruct L as (F & ND & D & Def).
  pose proof (loads_names w req lsp inc s fs is F) as EN.
  assert (NDi : NoDup (map input_name is)) by (now rewrite EN).
  assert (INP : forall i, In i is -> exists f, In f fs /\ f_name f = input_name i /\ load w req lsp inc s f = inl i).
  { intros i I. destruct (loads_file w req lsp inc s fs is i F I) as (f & If & Lf). exists f. split; auto. split; auto.
    symmetry. now apply load_name in Lf. }
  destruct (existsb (overwrites w) is) eqn:O.
  { cbn. intros H. injection H as <-. apply existsb_exists in O. destruct O as (i & Ii & Oi).
    destruct (INP i Ii) as (f & If & Ef & Lf). destruct i as [u|g imports]; [|discriminate Oi].
    apply load_new in Lf. destruct Lf as [U R]. exists f. split; auto. split; auto. cbn in Oi, Ef. now rewrite Ef. }
  fold (entries is).
  pose proof (sorted_perm (entries is)) as PERM.
  assert (ND' : NoDup (map fst (sorted_by_name (entries is)))).
  { eapply Permutation_NoDup; [apply Permutation_sym, Permutation_map, PERM|]. now rewrite entries_names. }
  pose proof (toposort_deps_spec _ ND') as S.
  destruct (toposort_deps (sorted_by_name (entries is))) as [order|[ns|]] eqn:T; [| |destruct S].
  2:{ cbn. intros H. injection H as <-. exists (sorted_by_name (entries is)). split; [|exact S].
      intros n l I. eapply Permutation_in in I; [|exact PERM]. unfold entries in I. apply in_map_iff in I.
      destruct I as (i & E & Ii). injection E as <- <-. destruct (INP i Ii) as (f & If & Ef & Lf).
      exists f. split; auto. split; auto. destruct i as [u|g imports].
      - apply load_new in Lf. destruct Lf as [U R]. right. split; auto. apply R.
      - apply load_cached in Lf. destruct Lf as (-> & U & m & Rm & -> & _). left. split; eauto. }
  destruct (toposort_deps_first is order NDi T) as (PO & NDO & DF).
  fold (deletes (removed s is)).
  destruct (process w is order (applied s (deletes (removed s is))) (rev (removed s is) ++ stale)) as [[os st] r] eqn:P.
  cbn. intros ->.
  assert (FND : forall n, In n order -> exists i, find_input n is = Some i).
  { intros n I. eapply Permutation_in in I; [|exact PO]. apply in_map_iff in I. destruct I as (i & <- & Ii).
    exists i. now apply find_input_in. }
  apply process_error in P; auto.
  destruct P as [(n & g & imports & I & Fn & -> & K)|(n & g & imports & I & Fn & -> & K)];
    apply find_input_some in Fn; destruct Fn as [Ii En]; destruct (INP _ Ii) as (f & If & Ef & Lf);
    apply load_cached in Lf; destruct Lf as (-> & U & m & Rm & -> & _); cbn in En; exists f.
  - auto.
  - split; auto. split; auto. split; auto. rewrite deletes_caches in K.
    destruct (member (f_name f) (removed s is)) eqn:M; auto. apply member_true in M.
    apply (removed_gone s fs is _ EN) in M. destruct M as [_ M]. destruct M. now apply in_map.
Qed.
