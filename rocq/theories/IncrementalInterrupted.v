(** Builds which are interrupted: metadata without cache. *)
From Coq Require Import NArith Bool List Lia.
From Verif Require Import Text TextProofs DepTreeSpec Incremental IncrementalSpec IncrementalProofs IncrementalErrors.
Import ListNotations.
Local Open Scope list_scope.
Local Open Scope nat_scope.

Definition complete (s : store) : Prop := forall n m, get n (metas s) = Some m -> get n (caches s) <> None.

(** What builds do: the cache and the metadata of a module together. *)
Inductive orderly : list (text * op) -> Prop :=
| no_ops : orderly []
| deleting p n os : orderly os -> orderly ((p, DeleteCache n) :: (p, DeleteMeta n) :: os)
| writing p n a m os : orderly os -> orderly ((p, WriteCache n a) :: (p, WriteMeta n m) :: os)
| clearing p os : orderly os -> orderly ((p, DeleteDirectory) :: os).

Lemma orderly_app a b : orderly a -> orderly b -> orderly (a ++ b).
Proof. induction 1; cbn; auto; constructor; auto. Qed.
Lemma orderly_delete p n : orderly (in_package p (delete n)).
Proof. apply deleting, no_ops. Qed.
Lemma orderly_deletes p l : orderly (in_package p (flat_map delete l)).
Proof. induction l as [|n l IH]; cbn; [apply no_ops|apply deleting, IH]. Qed.
Lemma in_package_app p a b : in_package p (a ++ b) = in_package p a ++ in_package p b.
Proof. apply map_app. Qed.
Lemma orderly_process w is p sequence : forall s stale, orderly (in_package p (fst (fst (process w is sequence s stale)))).
Proof.
  induction sequence as [|n sequence IH]; intros s stale; cbn [process]; [apply no_ops|].
  destruct (find_input n is) as [[u|f imports]|]; [| |apply no_ops].
  - specialize (IH s (u_name u :: stale)). destruct (process w is sequence s (u_name u :: stale)) as [[os st] r]. exact IH.
  - destruct (existsb _ imports).
    + destruct (read_source w f) as [u|e]; [|apply orderly_delete].
      specialize (IH (applied s (delete (f_name f))) (f_name f :: stale)). cbv zeta.
      destruct (process w is sequence _ _) as [[os st] r]. cbn [fst] in *. rewrite in_package_app.
      apply orderly_app; [apply orderly_delete|exact IH].
    + destruct (get (f_name f) (caches s)); [|apply no_ops].
      specialize (IH s stale). destruct (process w is sequence s stale) as [[os st] r]. exact IH.
Qed.
Lemma orderly_run w req lsp inc s defined stale fs p :
  orderly (in_package p (l_ops (run w req lsp inc s defined stale fs))).
Proof.
  unfold run. destruct (load_files _ _ _ _ _ _ _) as [[df is]|e]; [|apply no_ops].
  destruct (existsb _ is); [apply no_ops|]. cbv zeta.
  destruct (DepTree.toposort_deps _) as [sequence|[names|]]; [|apply orderly_deletes|apply orderly_deletes].
  pose proof (orderly_process w is p sequence (applied s (flat_map delete (removed s is))) (rev (removed s is) ++ stale)) as O.
  destruct (process w is sequence _ _) as [[os st] r]. cbn [fst l_ops] in *. rewrite in_package_app.
  apply orderly_app; [apply orderly_deletes|exact O].
Qed.
Lemma orderly_written w b p ms : orderly (in_package p (write_metadata w b ms)).
Proof. induction ms as [|[u a] ms IH]; cbn; [apply no_ops|apply writing, IH]. Qed.
Lemma orderly_package w req lsp s x fs p : orderly (in_package p (p_ops (compile_package w req lsp s x fs))).
Proof.
  unfold compile_package. cbv zeta. destruct (l_loaded _) as [ld|e]; [|apply orderly_run].
  destruct (a_failed _); [|apply orderly_run]. destruct (_ && _); [apply orderly_run|].
  cbn [p_ops]. rewrite in_package_app. apply orderly_app; [apply orderly_run|apply orderly_written].
Qed.
Lemma orderly_packages w c lsp d ps : forall x, orderly (b_ops (compile_packages w c lsp d x ps)).
Proof.
  induction ps as [|[p fs] ps IH]; intros x; cbn [compile_packages]; [apply no_ops|].
  pose proof (fun req => orderly_package w req lsp (d p) x fs p) as O.
  cbv zeta. destruct (p_result _); cbn [b_ops].
  - apply orderly_app; [apply O|apply IH].
  - rewrite in_package_app. apply orderly_app; [apply O|]. destruct ps; [apply no_ops|apply clearing, no_ops].
Qed.

Lemma complete_delete s n : complete s -> complete (apply (apply s (DeleteCache n)) (DeleteMeta n)).
Proof.
  intros C k m. cbn [apply metas caches]. rewrite !get_remove. destruct (text_eqb n k); [intros; discriminate|apply C].
Qed.
Lemma complete_write_cache s n a : complete s -> complete (apply s (WriteCache n a)).
Proof. intros C k m' H. cbn [apply metas caches] in *. rewrite get_insert. destruct (text_eqb n k); [discriminate|exact (C k m' H)]. Qed.
Lemma complete_write s n a m : complete s -> complete (apply (apply s (WriteCache n a)) (WriteMeta n m)).
Proof. intros C k m'. cbn [apply metas caches]. rewrite !get_insert. destruct (text_eqb n k); [intros; discriminate|apply C]. Qed.

Definition all_complete (d : disk) : Prop := forall p, complete (d p).
Lemma complete_op d p o : all_complete d -> complete (apply (d p) o) -> all_complete (apply_op d (p, o)).
Proof. intros A C q. unfold apply_op. cbn [fst snd]. destruct (text_eqb p q) eqn:E; auto. apply text_eqb_eq in E. now subst. Qed.
Lemma complete_ops d p o o' : all_complete d -> complete (apply (apply (d p) o) o') ->
  all_complete (apply_op (apply_op d (p, o)) (p, o')).
Proof.
  intros A C q. unfold apply_op. cbn [fst snd]. destruct (text_eqb p q) eqn:E; auto. apply text_eqb_eq in E. now subst.
Qed.
Lemma complete_prefix os : orderly os -> forall k d, all_complete d ->
  match k with S k => forall p n, nth_error os k <> Some (p, DeleteCache n) | O => True end ->
  all_complete (apply_ops d (firstn k os)).
Proof.
  induction 1 as [|p n os O IH|p n a m os O IH|p os O IH]; intros k d A K.
  - now rewrite firstn_nil.
  - destruct k as [|[|k]]; [exact A| |].
    + destruct (K p n). reflexivity.
    + cbn [firstn apply_ops fold_left]. apply IH; [|destruct k; auto].
      apply complete_ops; auto. apply complete_delete, A.
  - destruct k as [|[|k]]; [exact A| |].
    + apply (complete_op d p); auto. apply complete_write_cache, A.
    + cbn [firstn apply_ops fold_left]. apply IH; [|destruct k; auto].
      apply complete_ops; auto. apply complete_write, A.
  - destruct k as [|k]; [exact A|]. cbn [firstn apply_ops fold_left]. apply IH; [|destruct k; auto].
    apply complete_op; auto. intros n m. discriminate.
Qed.

Lemma complete_packages w c lsp d ps : all_complete d -> forall x p n,
  b_result (compile_packages w c lsp d x ps) <> inr (p, MissingCache n).
Proof.
  intros A. induction ps as [|[p fs] ps IH]; intros x q n; cbn [compile_packages]; [discriminate|].
  cbv zeta. destruct (p_result _) as [ns|e] eqn:E; cbn [b_result]; [apply IH|].
  intros [= -> ->]. unfold compile_package in E. cbv zeta in E.
  destruct (l_loaded _) as [ld|e] eqn:L; cbn [p_result] in E.
  - destruct (a_failed _); [|discriminate E]. destruct (_ && _); discriminate E.
  - injection E as ->. apply run_error in L. destruct L as (f & _ & Ef & U & G).
    destruct U as (m & R & _). unfold recorded in R. rewrite Ef in R. exact (A q n m R G).
Qed.

Lemma complete_steps w : forall es st, all_complete (caches_of st) -> interrupted_between w st es ->
  all_complete (caches_of (steps w st es)).
Proof.
  induction es as [|e es IH]; intros st A I; [exact A|]. destruct I as (K & I).
  change (steps w st (e :: es)) with (steps w (step w st e) es). apply IH; auto.
  destruct e as [p f|p o n| |c lsp|c lsp k]; try exact A; cbn [step caches_of].
  - rewrite <- (firstn_all (b_ops _)). apply complete_prefix; auto.
    { apply orderly_packages. }
    assert (O : orderly (b_ops (built w st c lsp))) by apply orderly_packages.
    clear - O. induction O as [|p n os O IH|p n a m os O IH|p os O IH]; cbn [length]; auto.
    + intros q k. cbn. destruct (length os) eqn:E; cbn; [discriminate|]. cbn in IH. apply IH.
    + intros q k. cbn. destruct (length os) eqn:E; cbn; [discriminate|]. cbn in IH. apply IH.
    + intros q k. cbn. destruct (length os) eqn:E; cbn; [discriminate|]. cbn in IH. apply IH.
  - apply complete_prefix; [apply orderly_packages|exact A|]. destruct k; auto.
Qed.

Theorem no_missing_cache w names es c lsp p n : interrupted_between w (start names) es ->
  b_result (built w (steps w (start names) es) c lsp) <> inr (p, MissingCache n).
Proof.
  intros I. apply complete_packages. apply complete_steps; auto. intros q k m. discriminate.
Qed.
