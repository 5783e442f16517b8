(** What one run of the loader does. *)
From Coq Require Import NArith Bool List Permutation Lia.
From Verif Require Import Text TextProofs DepTree DepTreeSpec DepTreeProofs Incremental IncrementalSpec IncrementalProofs.
Import ListNotations.
Local Open Scope list_scope.

(** ** The sequence *)

(** No module imports itself or a later one. *)
Fixpoint deps_first (is : list input) (l : list text) : Prop :=
  match l with
  | [] => True
  | n :: l =>
      (forall i d, find_input n is = Some i -> In d (input_imports i) -> ~ In d (n :: l)) /\ deps_first is l
  end.

Lemma find_input_some n is i : find_input n is = Some i -> In i is /\ input_name i = n.
Proof. unfold find_input. intros H. apply find_some in H. destruct H as [I E]. now apply eqb_true in E. Qed.
Lemma find_input_in is : NoDup (map input_name is) -> forall i, In i is -> find_input (input_name i) is = Some i.
Proof.
  unfold find_input. induction is as [|j is IH]; cbn; [easy|]. intros ND i. inversion ND as [|? ? N1 N2]; subst.
  intros [->|I].
  - now rewrite eqb_same.
  - destruct (text_eqb (input_name j) (input_name i)) eqn:E; auto.
    apply eqb_true in E. destruct N1. rewrite E. now apply in_map.
Qed.

Lemma insert_sorted_perm p l : Permutation (insert_sorted p l) (p :: l).
Proof.
  induction l as [|q l IH]; cbn [insert_sorted]; auto. destruct (text_cmp (fst p) (fst q)); auto.
  rewrite IH. apply perm_swap.
Qed.
Lemma sorted_perm l : Permutation (sorted_by_name l) l.
Proof. induction l as [|p l IH]; cbn; auto. rewrite insert_sorted_perm. now constructor. Qed.

Definition entries (is : list input) : list (text * list text) := map (fun i => (input_name i, input_imports i)) is.
Lemma entries_names is : map fst (entries is) = map input_name is.
Proof. unfold entries. rewrite map_map. reflexivity. Qed.

Lemma nodup_before {A} (x y : A) l1 l2 l : NoDup l -> l = l1 ++ y :: l2 -> comes_before x y l -> ~ In x (y :: l2).
Proof.
  intros ND E (a & b & c & E') I. subst l.
  assert (a ++ x :: b = l1) as <-.
  { clear I. assert (K : forall (p q : list A) r t, NoDup (p ++ y :: q) -> p ++ y :: q = r ++ y :: t -> p = r).
    { clear. induction p as [|z p IH]; intros q [|v r] t ND E; cbn in *.
      - reflexivity.
      - injection E as E1 E2. subst v q. inversion ND as [|? ? N _]. destruct N. apply in_or_app. right. now left.
      - injection E as -> E2. exfalso. inversion ND as [|? ? N1 N2]; subst. destruct N1. apply in_or_app. right. now left.
      - injection E as E1 E2. subst v. f_equal. inversion ND. eapply IH; eauto. }
    symmetry. apply (K l1 l2 (a ++ x :: b) c ND). rewrite E', <- app_assoc. reflexivity. }
  rewrite <- app_assoc in ND. cbn in ND. apply NoDup_remove_2 in ND. apply ND.
  apply in_or_app. right. apply in_or_app. now right.
Qed.

Lemma toposort_deps_first is order :
  NoDup (map input_name is) -> toposort_deps (sorted_by_name (entries is)) = inl order ->
  Permutation order (map input_name is) /\ NoDup order /\ deps_first is order.
Proof.
  intros ND T. pose proof (sorted_perm (entries is)) as P.
  assert (ND' : NoDup (map fst (sorted_by_name (entries is)))).
  { eapply Permutation_NoDup; [apply Permutation_sym, Permutation_map, P|]. now rewrite entries_names. }
  pose proof (toposort_deps_spec _ ND') as S. rewrite T in S. destruct S as [PO S].
  assert (PN : Permutation order (map input_name is)).
  { rewrite <- entries_names. rewrite PO. now apply Permutation_map. }
  assert (NDO : NoDup order) by (eapply Permutation_NoDup; [apply Permutation_sym, PN|exact ND]).
  split; [exact PN|]. split; [exact NDO|].
  assert (K : forall l1 l2, order = l1 ++ l2 -> deps_first is l2).
  { intros l1 l2. revert l1. induction l2 as [|n l2 IH]; intros l1 E; cbn; auto. split.
    - intros i d F D I.
      apply (nodup_before d n l1 l2 order NDO E); [|exact I].
      apply S. exists (input_imports i). apply find_input_some in F. destruct F as [Ii <-].
      split; [|split; [exact D|]].
      + eapply Permutation_in; [apply Permutation_sym, P|]. unfold entries. apply in_map_iff. eauto.
      + eapply Permutation_in; [exact PO|]. rewrite E. apply in_or_app. now right.
    - apply IH with (l1 := l1 ++ [n]). now rewrite <- app_assoc. }
  apply (K []). reflexivity.
Qed.

(** ** Consequences *)
Section Processes.
Variables (w : world) (is : list input).

Lemma found_name n i : find_input n is = Some i -> input_name i = n.
Proof. intros H. now apply find_input_some in H. Qed.

(** The name of a compiled module is the name of its input. *)
Definition names_kept := forall n f imports, find_input n is = Some (Cached f imports) -> f_name f = n.

Lemma proc_perm l s stale os stale' ld : processes w is l s stale os stale' ld ->
  Permutation l (map u_name (to_compile ld) ++ map fst (from_cache ld)).
Proof.
  induction 1 as [|n l s stale os stale' ld u F P IH|n l s stale os stale' ld f imports d u F D S R P IH
                 |n l s stale os stale' ld f imports a F D G P IH]; cbn [to_compile from_cache map fst app].
  - constructor.
  - apply found_name in F. cbn in F. rewrite F. now constructor.
  - apply found_name in F. cbn in F. destruct R as (-> & _). rewrite F. now constructor.
  - apply found_name in F. cbn in F. rewrite F. apply Permutation_cons_app. exact IH.
Qed.
Lemma proc_stale l s stale os stale' ld : processes w is l s stale os stale' ld ->
  stale' = rev (map u_name (to_compile ld)) ++ stale.
Proof.
  induction 1 as [|n l s stale os stale' ld u F P IH|n l s stale os stale' ld f imports d u F D S R P IH
                 |n l s stale os stale' ld f imports a F D G P IH]; cbn [to_compile from_cache map rev app]; auto.
  - rewrite <- app_assoc. exact IH.
  - rewrite <- app_assoc. destruct R as (-> & _). exact IH.
Qed.
Definition was_cached (n : text) : bool :=
  match find_input n is with Some (Cached _ _) => true | _ => false end.
Lemma proc_ops l s stale os stale' ld : processes w is l s stale os stale' ld ->
  os = deletes (filter was_cached (map u_name (to_compile ld))).
Proof.
  induction 1 as [|n l s stale os stale' ld u F P IH|n l s stale os stale' ld f imports d u F D S R P IH
                 |n l s stale os stale' ld f imports a F D G P IH]; cbn [to_compile from_cache map filter]; auto.
  - pose proof (found_name _ _ F) as E. cbn in E. unfold was_cached at 1. rewrite E, F. exact IH.
  - pose proof (found_name _ _ F) as E. cbn in E. destruct R as (-> & _). unfold was_cached at 1. rewrite E, F.
    cbn [deletes flat_map]. rewrite IH. reflexivity.
Qed.
Lemma proc_compiled l s stale os stale' ld : processes w is l s stale os stale' ld ->
  forall u, In u (to_compile ld) ->
  find_input (u_name u) is = Some (New u)
  \/ exists f imports d, find_input (u_name u) is = Some (Cached f imports) /\ read w f u
       /\ In d imports /\ (In d stale \/ In d (map u_name (to_compile ld))).
Proof.
  induction 1 as [|n l s stale os stale' ld u F P IH|n l s stale os stale' ld f imports d u F D S R P IH
                 |n l s stale os stale' ld f imports a F D G P IH]; cbn [to_compile from_cache map].
  - easy.
  - pose proof (found_name _ _ F) as E. cbn in E. intros v [<-|I].
    + left. congruence.
    + destruct (IH v I) as [K|(g & is' & d & F' & R & D & [[Ed|Sd]|T])]; auto; right; exists g, is', d;
        (split; [exact F'|split; [exact R|split; [exact D|cbn; tauto]]]).
  - pose proof (found_name _ _ F) as E. cbn in E.
    assert (u_name u = n) as Eu by (destruct R as (-> & _); exact E). intros v [<-|I].
    + right. exists f, imports, d. rewrite Eu. auto.
    + destruct (IH v I) as [K|(g & is' & d' & F' & R' & D' & [[Ed|Sd]|T])]; auto; right; exists g, is', d';
        (split; [exact F'|split; [exact R'|split; [exact D'|cbn]]]); [|tauto|tauto].
      right. left. congruence.
  - intros u I. exact (IH u I).
Qed.
Lemma proc_cached l s stale os stale' ld : processes w is l s stale os stale' ld ->
  NoDup l -> deps_first is l ->
  forall n a, In (n, a) (from_cache ld) ->
  get n (caches s) = Some a
  /\ exists f imports, find_input n is = Some (Cached f imports)
     /\ forall d, In d imports -> ~ In d stale /\ ~ In d (map u_name (to_compile ld)).
Proof.
  induction 1 as [|n l s stale os stale' ld u F P IH|n l s stale os stale' ld f imports d u F D S R P IH
                 |n l s stale os stale' ld f imports a F D G P IH]; cbn [to_compile from_cache map]; intros ND DF.
  - easy.
  - pose proof (found_name _ _ F) as E. cbn in E. inversion ND; subst. destruct DF as [_ DF].
    intros m a I. destruct (IH ltac:(auto) DF m a I) as (G & f & imports & F' & K). split; auto.
    exists f, imports. split; auto. intros d Id. destruct (K d Id) as [K1 K2]. cbn in K1. split.
    + intros J. apply K1. now right.
    + intros [J|J]; [|contradiction]. apply K1. now left.
  - pose proof (found_name _ _ F) as E. cbn in E.
    assert (u_name u = f_name f) as Eu by (destruct R as (-> & _); reflexivity).
    inversion ND; subst. destruct DF as [_ DF].
    intros m a I. destruct (IH ltac:(auto) DF m a I) as (G & g & imports' & F' & K). split.
    + rewrite delete_caches in G. destruct (text_eqb (f_name f) m); [discriminate G|exact G].
    + exists g, imports'. split; auto. intros d' Id. destruct (K d' Id) as [K1 K2]. cbn in K1. split.
      * intros J. apply K1. now right.
      * intros [J|J]; [|contradiction]. apply K1. left. congruence.
  - pose proof (found_name _ _ F) as E. cbn in E. inversion ND as [|? ? N1 N2]; subst. destruct DF as [DF1 DF].
    intros m b [Eq|I].
    + injection Eq as <- <-. split; auto. exists f, imports. split; auto. intros d Id. split; auto.
      intros J. apply (DF1 _ d F Id). right.
      eapply Permutation_in; [apply Permutation_sym; eapply proc_perm; eassumption|]. apply in_or_app. now left.
    + apply IH; auto.
Qed.

(** The compiled modules are in the order of the sequence. *)
Lemma proc_order l s stale os stale' ld : processes w is l s stale os stale' ld ->
  deps_first is l ->
  forall us u vs i d, to_compile ld = us ++ u :: vs -> find_input (u_name u) is = Some i -> In d (input_imports i) ->
  ~ In d (map u_name (u :: vs)).
Proof.
  induction 1 as [|n l s stale os stale' ld u F P IH|n l s stale os stale' ld f imports d u F D S R P IH
                 |n l s stale os stale' ld f imports a F D G P IH]; cbn [to_compile from_cache map]; intros [DF1 DF] || intros DF.
  - intros us u vs i d E. destruct us; discriminate E.
  - pose proof (found_name _ _ F) as E. cbn in E. intros us v vs i d' EE F' D'.
    destruct us as [|u0 us]; cbn in EE; injection EE as E1 E2.
    + subst v. rewrite E in F'. intros I. apply (DF1 i d' F' D').
      destruct I as [I|I]; [left; congruence|right].
      eapply Permutation_in; [apply Permutation_sym; eapply proc_perm; eassumption|]. apply in_or_app. left. now rewrite E2.
    + eapply IH; eauto.
  - pose proof (found_name _ _ F) as E. cbn in E.
    assert (u_name u = n) as Eu by (destruct R as (-> & _); exact E). intros us v vs i d' EE F' D'.
    destruct us as [|u0 us]; cbn in EE; injection EE as E1 E2.
    + subst v. rewrite Eu in F'. intros I. apply (DF1 i d' F' D').
      destruct I as [I|I]; [left; congruence|right].
      eapply Permutation_in; [apply Permutation_sym; eapply proc_perm; eassumption|]. apply in_or_app. left. now rewrite E2.
    + eapply IH; eauto.
  - intros us v vs i d' EE F' D'. eapply IH; eauto.
Qed.
End Processes.

Lemma nodup_app {A} (a b : list A) : NoDup (a ++ b) -> NoDup a /\ NoDup b /\ forall x, In x a -> ~ In x b.
Proof.
  induction a as [|y a IH]; cbn.
  - intros H. repeat split; auto. constructor.
  - intros H. inversion H as [|? ? N1 N2]; subst. destruct (IH N2) as (A1 & A2 & A3). split.
    + constructor; auto. intros I. apply N1. apply in_or_app. now left.
    + split; auto. intros x [<-|I]; auto. intros J. apply N1. apply in_or_app. now right.
Qed.

(** ** [run] *)
Section Run.
Variables (w : world) (req lsp : bool) (inc : list text) (s : store) (defined stale : list text) (fs : list file).

Lemma run_inv ld : l_loaded (run w req lsp inc s defined stale fs) = inl ld ->
  exists is order os,
    load_files w req lsp inc s defined fs = inl (l_defined (run w req lsp inc s defined stale fs), is)
    /\ existsb (overwrites w) is = false
    /\ toposort_deps (sorted_by_name (entries is)) = inl order
    /\ processes w is order (applied s (deletes (removed s is))) (rev (removed s is) ++ stale) os
         (l_stale (run w req lsp inc s defined stale fs)) ld
    /\ l_ops (run w req lsp inc s defined stale fs) = deletes (removed s is) ++ os.
Proof.
  unfold run. fold (entries). destruct (load_files w req lsp inc s defined fs) as [[d is]|e]; [|discriminate].
  destruct (existsb (overwrites w) is) eqn:O; [discriminate|]. fold (entries is).
  destruct (toposort_deps (sorted_by_name (entries is))) as [order|[]] eqn:T; [|discriminate|discriminate].
  fold (deletes (removed s is)).
  destruct (process w is order (applied s (deletes (removed s is))) (rev (removed s is) ++ stale)) as [[os st] r] eqn:P.
  cbn. intros ->. apply process_ok in P. eauto 10.
Qed.

Lemma loads_names is : Forall2 (fun f i => load w req lsp inc s f = inl i) fs is -> map input_name is = map f_name fs.
Proof. induction 1; cbn; auto. apply load_name in H. now f_equal. Qed.
Lemma loads_file is i : Forall2 (fun f i => load w req lsp inc s f = inl i) fs is -> In i is ->
  exists f, In f fs /\ load w req lsp inc s f = inl i.
Proof. induction 1; cbn; [easy|]. intros [<-|I]; eauto. destruct (IHForall2 I) as (g & Ig & G). eauto. Qed.
Lemma loads_input is f : Forall2 (fun f i => load w req lsp inc s f = inl i) fs is -> In f fs ->
  exists i, In i is /\ load w req lsp inc s f = inl i.
Proof. induction 1; cbn; [easy|]. intros [<-|I]; eauto. destruct (IHForall2 I) as (g & Ig & G). eauto. Qed.
Lemma same_file f g : NoDup (map f_name fs) -> In f fs -> In g fs -> f_name f = f_name g -> f = g.
Proof.
  clear. induction fs as [|h l IH]; cbn; [easy|]. intros ND. inversion ND as [|? ? N1 N2]; subst.
  intros [->|I] [->|J] E; auto; destruct N1; [rewrite E|rewrite <- E]; now apply in_map.
Qed.

Lemma removed_gone is n : map input_name is = map f_name fs -> In n (removed s is) <-> gone s fs n.
Proof.
  intros E. unfold removed, gone, recorded. rewrite filter_In, get_some, E.
  destruct (member n (map f_name fs)) eqn:M; cbn.
  - apply member_true in M. split; [easy|]. intros [_ K]. contradiction.
  - apply member_false in M. split; [tauto|]. intros [K _]. auto.
Qed.

Notation recompiled := (recompiled w req lsp inc s stale fs).
Notation usable := (usable w req lsp inc s).

Theorem run_spec ld : let r := run w req lsp inc s defined stale fs in l_loaded r = inl ld ->
  (forall n, In n (map u_name (to_compile ld)) <-> recompiled n)
  /\ NoDup (map u_name (to_compile ld))
  /\ (forall u, In u (to_compile ld) -> exists f, In f fs /\ read w f u)
  /\ (forall us u vs f d, to_compile ld = us ++ u :: vs -> In f fs -> f_name f = u_name u ->
        (usable f /\ (exists m, recorded s (f_name f) m /\ In d (m_imports m))) \/ (~ usable f /\ In d (u_imports u)) ->
        ~ In d (map u_name (u :: vs)))
  /\ (forall n a, In (n, a) (from_cache ld) <-> In n (map f_name fs) /\ ~ recompiled n /\ get n (caches s) = Some a)
  /\ NoDup (map fst (from_cache ld))
  /\ (forall n, In n (map f_name fs) -> recompiled n \/ In n (map fst (from_cache ld)))
  /\ (forall n, In n (l_stale r) <-> In n stale \/ gone s fs n \/ recompiled n)
  /\ (forall n, In n (l_defined r) <-> In n defined \/ In n (map f_name fs))
  /\ (forall n, get n (metas (applied s (l_ops r))) = get n (metas s) /\ get n (caches (applied s (l_ops r))) = get n (caches s)
                /\ ~ gone s fs n /\ (forall f, In f fs -> f_name f = n -> usable f -> ~ recompiled n)
           \/ get n (metas (applied s (l_ops r))) = None /\ get n (caches (applied s (l_ops r))) = None
                /\ (gone s fs n \/ exists f, In f fs /\ f_name f = n /\ usable f /\ recompiled n)).
Proof.
  intros r H. destruct (run_inv ld H) as (is & order & os & L & O & T & P & OP). fold r in L, P, OP.
  apply load_files_ok in L. destruct L as (F & ND & D & Def).
  pose proof (loads_names _ F) as EN.
  assert (NDi : NoDup (map input_name is)) by (now rewrite EN).
  destruct (toposort_deps_first is order NDi T) as (PO & NDO & DF).
  pose proof (proc_perm w is _ _ _ _ _ _ P) as PP.
  pose proof (proc_stale w is _ _ _ _ _ _ P) as PS.
  pose proof (proc_ops w is _ _ _ _ _ _ P) as POS.
  assert (ND2 : NoDup (map u_name (to_compile ld) ++ map fst (from_cache ld))) by (eapply Permutation_NoDup; eauto).
  destruct (nodup_app _ _ ND2) as (NDt & NDf & DISJ).
  assert (ALL : forall n, In n (map f_name fs) <-> In n (map u_name (to_compile ld)) \/ In n (map fst (from_cache ld))).
  { intros n. rewrite <- in_app_iff. split; intros I.
    - eapply Permutation_in; [exact PP|]. eapply Permutation_in; [apply Permutation_sym, PO|]. now rewrite EN.
    - rewrite <- EN. eapply Permutation_in; [exact PO|]. eapply Permutation_in; [apply Permutation_sym, PP|exact I]. }
  assert (INP : forall n i, find_input n is = Some i -> exists f, In f fs /\ f_name f = n /\ load w req lsp inc s f = inl i).
  { intros n i Fi. apply find_input_some in Fi. destruct Fi as [I <-].
    destruct (loads_file is i F I) as (f & If & Lf). exists f. split; auto. split; auto. now apply load_name in Lf. }
  assert (FI : forall f i, In f fs -> load w req lsp inc s f = inl i -> find_input (f_name f) is = Some i).
  { intros f i I Lf. destruct (loads_input is f F I) as (j & J & Lj). assert (j = i) as -> by congruence.
    rewrite <- (load_name _ _ _ _ _ _ _ Lf). now apply find_input_in. }
  assert (CACHED := proc_cached w is _ _ _ _ _ _ P NDO DF).
  assert (STALE : forall f, In f fs -> usable f ->
            forall m d, recorded s (f_name f) m -> In d (m_imports m) ->
            In d stale \/ gone s fs d \/ In d (map u_name (to_compile ld)) -> In (f_name f) (map u_name (to_compile ld))).
  { intros f If Uf m d Rm Dm IHK.
    apply in_map with (f := f_name) in If as In'. apply ALL in In'. destruct In' as [I|I]; auto.
    apply in_map_iff in I. destruct I as ([n a] & E & I). cbn in E. subst n.
    destruct (CACHED _ _ I) as (_ & g & imports & Fg & Kd).
    destruct (INP _ _ Fg) as (f' & If' & Ef & Lf). assert (f' = f) as -> by (apply same_file; auto).
    apply load_cached in Lf. destruct Lf as (-> & _ & m' & Rm' & -> & _).
    assert (m' = m) as -> by (unfold recorded in *; congruence).
    destruct (Kd d Dm) as [K1 K2]. exfalso.
    destruct IHK as [J|[J|J]].
    - apply K1. apply in_or_app. now right.
    - apply K1. apply in_or_app. left. apply -> in_rev. now apply removed_gone.
    - exact (K2 J). }
  assert (REC : forall n, recompiled n -> In n (map u_name (to_compile ld))).
  { intros n R.
    induction R as [f If Un|f m d If Uf Rm Dm K|f m d If Uf Rm Dm R IH].
    - apply in_map with (f := f_name) in If as In'. apply ALL in In'. destruct In' as [I|I]; auto.
      apply in_map_iff in I. destruct I as ([n a] & E & I). cbn in E. subst n.
      destruct (CACHED _ _ I) as (_ & g & imports & Fg & _).
      destruct (INP _ _ Fg) as (f' & If' & Ef & Lf). assert (f' = f) as -> by (apply same_file; auto).
      apply load_cached in Lf. destruct Lf as (_ & Uf & _). contradiction.
    - eapply STALE; eauto. tauto.
    - eapply STALE; eauto. }
  assert (COMP := proc_compiled w is _ _ _ _ _ _ P).
  assert (ORD := proc_order w is _ _ _ _ _ _ P DF).
  assert (TC : forall n, In n (map u_name (to_compile ld)) -> recompiled n).
  { assert (K : forall us vs, to_compile ld = us ++ vs -> (forall u, In u us -> recompiled (u_name u)) ->
              forall u, In u vs -> recompiled (u_name u)).
    { intros us vs. revert us. induction vs as [|v vs IH]; intros us E U; [easy|].
      assert (RV : recompiled (u_name v)).
      { assert (Iv : In v (to_compile ld)) by (rewrite E; apply in_or_app; right; now left).
        destruct (COMP v Iv) as [Fv|(f & imports & d & Fv & Rv & Dv & Kv)].
        - destruct (INP _ _ Fv) as (f & If & <- & Lf). apply load_new in Lf. constructor; auto. apply Lf.
        - destruct (INP _ _ Fv) as (f' & If & <- & Lf). apply load_cached in Lf.
          destruct Lf as (-> & Uf & m & Rm & -> & _). destruct Kv as [Kv|Kv].
          + eapply stale_import; eauto. apply in_app_or in Kv. destruct Kv as [Kv|Kv]; auto. right.
            rewrite <- in_rev in Kv. revert Kv. now apply removed_gone.
          + eapply recompiled_import; eauto.
            assert (N := ORD us v vs _ d E Fv Dv). rewrite E, map_app in Kv. apply in_app_or in Kv.
            destruct Kv as [Kv|Kv]; [|contradiction]. apply in_map_iff in Kv. destruct Kv as (u & <- & Iu). auto. }
      intros u [<-|I]; auto. apply (IH (us ++ [v])); auto.
      - rewrite <- app_assoc. exact E.
      - intros u' I'. apply in_app_or in I'. destruct I' as [I'|[<-|[]]]; auto. }
    intros n I. apply in_map_iff in I. destruct I as (u & <- & I). apply (K [] (to_compile ld)); easy. }
  assert (RECIFF : forall n, In n (map u_name (to_compile ld)) <-> recompiled n) by (split; auto).
  split; [exact RECIFF|]. split; [exact NDt|]. split; [|split; [|split; [|split; [exact NDf|split; [|split; [|split]]]]]].
  - intros u I. destruct (COMP u I) as [Fv|(f & imports & d & Fv & Rv & _)].
    + destruct (INP _ _ Fv) as (f & If & _ & Lf). apply load_new in Lf. exists f. split; [exact If|apply Lf].
    + destruct (INP _ _ Fv) as (f' & If & _ & Lf). apply load_cached in Lf. destruct Lf as (-> & _). eauto.
  - intros us u vs f d E If Ef K. destruct (loads_input is f F If) as (i & Ii & Li).
    pose proof (FI f i If Li) as Fi. rewrite Ef in Fi. apply (ORD us u vs i d E Fi).
    destruct i as [v|g imports].
    + pose proof Li as Lv. apply load_new in Lv. destruct K as [[K _]|[_ K]]; [destruct Lv; contradiction|].
      assert (Iu : In u (to_compile ld)) by (rewrite E; apply in_or_app; right; now left).
      destruct (COMP u Iu) as [Fv|(g & imports & d' & Fv & _)]; rewrite Fi in Fv; [|discriminate].
      injection Fv as ->. exact K.
    + pose proof Li as Lv. apply load_cached in Lv. destruct Lv as (-> & Uf & m & Rm & -> & _).
      destruct K as [[_ (m' & Rm' & K)]|[K _]]; [|contradiction]. unfold recorded in *. cbn. congruence.
  - intros n a. split.
    + intros I. destruct (CACHED n a I) as (G & _). pose proof (in_map fst _ _ I) as In'. cbn in In'. split.
      { apply ALL. now right. }
      split.
      { intros R. apply RECIFF in R. exact (DISJ n R In'). }
      rewrite deletes_caches in G. destruct (member n (removed s is)); [discriminate G|exact G].
    + intros (I & NR & G). apply ALL in I. rewrite RECIFF in I. destruct I as [I|I]; [contradiction|].
      apply in_map_iff in I. destruct I as ([m b] & E & I). cbn in E. subst m.
      destruct (CACHED n b I) as (G' & _).
      rewrite deletes_caches in G'. destruct (member n (removed s is)); [discriminate G'|]. congruence.
  - intros n I. rewrite <- RECIFF. now apply ALL.
  - intros n. rewrite PS. rewrite !in_app_iff, <- !in_rev, RECIFF, (removed_gone is n EN). tauto.
  - intros n. rewrite Def, in_app_iff, <- in_rev. tauto.
  - intros n. rewrite OP, POS, applied_app.
    rewrite !deletes_metas, !deletes_caches.
    destruct (member n (filter (was_cached is) (map u_name (to_compile ld)))) eqn:M1.
    + right. split; auto. split; auto. right. apply member_true in M1. apply filter_In in M1. destruct M1 as [I C].
      unfold was_cached in C. destruct (find_input n is) as [[u|g imports]|] eqn:Fn; try discriminate C.
      destruct (INP _ _ Fn) as (f & If & Ef & Lf). apply load_cached in Lf. destruct Lf as (_ & Uf & _).
      exists f. auto.
    + apply member_false in M1. destruct (member n (removed s is)) eqn:M2.
      * right. split; auto. split; auto. left. apply member_true in M2. now apply removed_gone in M2.
      * left. split; auto. split; auto. apply member_false in M2. rewrite (removed_gone is n EN) in M2. split; auto.
        intros f If Ef Uf R. apply M1. apply filter_In. split; [now apply RECIFF|].
        unfold was_cached. destruct (loads_input is f F If) as (i & Ii & Li). rewrite <- Ef, (FI f i If Li).
        destruct i as [u|g imports]; auto. apply load_new in Li. destruct Li. contradiction.
Qed.
End Run.
