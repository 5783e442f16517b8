(** A world for examples and a way to see that an artefact is not current. *)
From Coq Require Import String NArith Arith Bool List.
From Verif Require Import Text TextProofs Incremental IncrementalSpec IncrementalProofs.
Import ListNotations.
Local Open Scope list_scope.
Local Open Scope N_scope.

(** A source is a character and the names of the modules it imports, one character each.  It
    cannot be parsed if the character is [!]; the module has errors if it is [?]. *)
Definition demo : world := {|
  parse := fun t => match t with c :: ds => if c =? 33 then None else Some (map (fun d => [d]) ds) | [] => Some [] end;
  fingerprint := fun t => fold_left (fun h c => h * 1114112 + c) t 1;
  judge := fun a => match a with Compiled _ c _ => match c_text c with 63 :: _ => Faulty | _ => Fine end end;
  generates := fun _ => true;
  standard := fun n => text_eqb n (str "lists") |}.

Definition source (n : string) (mtime : N) (t : string) : file :=
  {| f_name := str n; f_mtime := mtime; f_content := {| c_origin := Src; c_text := str t |} |}.
Definition test_source (n : string) (mtime : N) (t : string) : file :=
  {| f_name := str n; f_mtime := mtime; f_content := {| c_origin := Test; c_text := str t |} |}.

(** ** Outdated artefacts *)
Definition content_eqb (a b : content) : bool := origin_eqb (c_origin a) (c_origin b) && text_eqb (c_text a) (c_text b).
Definition there (ps : list package) (n : text) (c : content) : bool :=
  existsb (fun p => existsb (fun f => text_eqb (f_name f) n && content_eqb (f_content f) c) (snd p)) ps.
Fixpoint outdated (ps : list package) (a : artefact) : bool :=
  match a with
  | Compiled n c ds =>
      negb (there ps n c)
      || (fix any (ds : list (text * artefact)) : bool :=
            match ds with [] => false | (_, a) :: ds => outdated ps a || any ds end) ds
  end.
Lemma content_eqb_same c : content_eqb c c = true.
Proof. unfold content_eqb. rewrite text_eqb_refl. now destruct (c_origin c). Qed.
Lemma outdated_not_current w ps : forall a k, current w ps k a -> outdated ps a = false.
Proof.
  fix IH 1. intros [n c ds] k H. cbn [outdated].
  assert (T : there ps n c = true).
  { inversion H as [k' p fs f ds' NE If Pf K]; subst. unfold there. apply existsb_exists. exists (p, fs).
    split; [eapply nth_error_In; eauto|].
    apply existsb_exists. exists f. split; auto. rewrite text_eqb_refl. apply content_eqb_same. }
  assert (Q : forall d a, In (d, a) ds -> exists j, current w ps j a).
  { inversion H as [k' p fs f ds' NE If Pf K]; subst. intros d a I. destruct (K d a I) as (_ & j & _ & C). eauto. }
  rewrite T. clear H T. cbn [negb orb]. induction ds as [|[d a] ds IHd]; auto. apply orb_false_intro.
  - destruct (Q d a (or_introl eq_refl)) as (j & C). exact (IH a j C).
  - apply IHd. intros d' a' I. apply (Q d' a'). now right.
Qed.

(** Something outdated is loaded from a cache. *)
Definition loads_outdated (w : world) (st : state) (c : codegen) (lsp : bool) : bool :=
  existsb (fun e => existsb (fun e => outdated (packages st) (snd e)) (snd e)) (b_cached (built w st c lsp)).
Lemma loads_outdated_true w st c lsp : loads_outdated w st c lsp = true -> ~ loads_current w st c lsp.
Proof.
  unfold loads_outdated. intros H L. apply existsb_exists in H. destruct H as ([p cached] & I & H).
  apply existsb_exists in H. destruct H as ([n a] & J & H). cbn in *.
  destruct (L p cached n a I J) as (k & fs & _ & _ & C). rewrite (outdated_not_current _ _ _ _ C) in H. discriminate H.
Qed.

(** ** Histories after which something outdated is loaded *)
Definition root : text := str "app".
Definition lib : text := str "lib".
Definition lib2 : text := str "lib2".
Definition build_all : list event := [Start; Build All false].

(** A module is removed and there is an import cycle: the cache of the removed module is
    deleted, the module that imports it is not compiled and its cache stays. *)
Definition removal_forgotten : list event :=
  [Write root (source "a" 1 "1"); Write root (source "b" 1 "1a"); Write root (source "c" 1 "1")] ++ build_all
  ++ [Remove root Src (str "a"); Write root (source "c" 2 "2c")] ++ build_all ++ [Write root (source "c" 3 "3")].
(** A dependency is compiled, then the root package cannot be parsed. *)
Definition failed_after_dependency : list event :=
  [Write lib (source "a" 1 "1"); Write root (source "b" 1 "1a"); Write root (source "c" 1 "1")] ++ build_all
  ++ [Write lib (source "a" 2 "2"); Write root (source "c" 2 "!")] ++ build_all ++ [Write root (source "c" 3 "3")].
(** The same when a later dependency does not compile. *)
Definition failed_in_dependency : list event :=
  [Write lib (source "a" 1 "1"); Write lib2 (source "c" 1 "1"); Write root (source "b" 1 "1a")] ++ build_all
  ++ [Write lib (source "a" 2 "2"); Write lib2 (source "c" 2 "?")] ++ build_all ++ [Write lib2 (source "c" 3 "3")].
(** A file is replaced by an older one. *)
Definition older_file : list event :=
  [Write root (source "a" 5 "1"); Write root (source "b" 5 "1a")] ++ build_all ++ [Write root (source "a" 4 "2")].
(** A module moves from [src] to [test] unchanged. *)
Definition moved_to_test : list event :=
  [Write root (source "a" 1 "1")] ++ build_all ++ [Remove root Src (str "a"); Write root (test_source "a" 2 "1")].
(** A module is removed, a module that imports it is changed and has errors, and the change is
    undone. *)
Definition change_undone : list event :=
  [Write root (source "a" 1 "1"); Write root (source "b" 1 "1a")] ++ build_all
  ++ [Remove root Src (str "a"); Write root (source "b" 2 "?a")] ++ build_all ++ [Write root (source "b" 3 "1a")].
(** Without code generation the caches of a build with errors are used. *)
Definition codegen_forgotten : list event :=
  [Write lib (source "a" 1 "1"); Write root (source "b" 1 "1a"); Write root (source "c" 1 "1"); Start; Build NoCodegen false]
  ++ [Write lib (source "a" 2 "2"); Write root (source "c" 2 "?")] ++ build_all ++ [Write root (source "c" 3 "3"); Start].
(** A build is interrupted while the metadata is written, and the change is undone. *)
Definition interrupted_writing : list event :=
  [Write root (source "a" 1 "1"); Write root (source "b" 1 "1a")] ++ build_all
  ++ [Write root (source "a" 2 "2"); Write root (source "b" 2 "2a"); Start; Interrupted All false 2; Write root (source "b" 3 "1a")].

(** A build is interrupted between the deletion of a cache and of its metadata, and the change
    is undone. *)
Definition interrupted_deleting : list event :=
  [Write root (source "a" 1 "1"); Write root (source "b" 1 "1a")] ++ build_all
  ++ [Write root (source "a" 2 "2"); Start; Interrupted All false 1; Write root (source "a" 3 "1")].
(** The language server keeps modules that have been removed. *)
Definition removed_in_editor : list event :=
  [Write root (source "a" 1 "1"); Write root (source "b" 1 "1a"); Start; Build NoCodegen true; Remove root Src (str "a")].

(** A history in which everything goes well, with a build that has errors. *)
Definition ordinary : list event :=
  [Write lib (source "l" 1 "1"); Write root (source "a" 1 "1l"); Write root (source "b" 1 "1a");
   Write root (source "c" 1 "1l"); Start; Build All false;
   Write root (source "a" 2 "?l"); Start; Build All false;
   Write root (source "a" 3 "2l"); Start; Build All false;
   Write root (source "b" 4 "2a"); Start].

(** ** That history is careful *)
Definition not_written (past : list (text * file)) (p n : text) (x : content) : bool :=
  forallb (fun e => negb (text_eqb (fst e) p && text_eqb (f_name (snd e)) n && content_eqb (f_content (snd e)) x)) past.
Lemma not_written_not past p n x : not_written past p n x = true ->
  ~ exists g, In (p, g) past /\ f_name g = n /\ f_content g = x.
Proof.
  unfold not_written. rewrite forallb_forall. intros H (g & I & En & Ex). apply H in I. cbn in I. subst.
  rewrite !text_eqb_refl, content_eqb_same in I. discriminate I.
Qed.
Definition newer (w : world) (past : list (text * file)) (p : text) (f : file) : bool :=
  forallb (fun e => negb (text_eqb (fst e) p && text_eqb (f_name (snd e)) (f_name f))
    || ((f_mtime (snd e) <? f_mtime f)
        && negb (fingerprint w (c_text (f_content (snd e))) =? fingerprint w (c_text (f_content f))))) past.
Lemma careful_write w st past retired g p f es :
  newer w past p f = true -> ~ retired p (f_name f) (f_content f) ->
  careful w (step w st (Write p f)) ((p, f) :: past) retired g es -> careful w st past retired g (Write p f :: es).
Proof.
  intros N R H. cbn [careful]. split; auto. intros h I E. unfold newer in N. rewrite forallb_forall in N.
  apply N in I. cbn [fst snd] in I. rewrite E, !text_eqb_refl in I. cbn [andb negb orb] in I.
  apply andb_prop in I. destruct I as (A & B). split; [now apply N.ltb_lt|].
  intros F. rewrite F, N.eqb_refl in B. discriminate B.
Qed.
Lemma careful_start w st past retired g es :
  careful w (step w st Start) past retired g es -> careful w st past retired g (Start :: es).
Proof. auto. Qed.
Lemma careful_build w st past retired g es :
  compiler st = new_compiler -> b_result (built w st All false) = inl tt ->
  careful w (step w st (Build All false)) past retired g es -> careful w st past retired g (Build All false :: es).
Proof. intros C B H. cbn [careful]. split; [|split; [|split]]; auto. right. left. split; auto. now left. Qed.
Lemma careful_errors w st past retired g es failed skipped others p fs :
  compiler st = new_compiler -> rev (packages st) = (p, fs) :: others ->
  b_result (built w st All false) = inr (p, TypeErrors failed skipped) ->
  careful w (step w st (Build All false)) past
    (fun p n x => retired p n x \/ ((exists g, In (p, g) past /\ f_name g = n /\ f_content g = x)
                          /\ (forall f, has_file st p f -> f_name f = n -> f_content f <> x))) (g || true) es ->
  careful w st past retired g (Build All false :: es).
Proof.
  intros C P B H. cbn [careful]. split; [|split; [|split]]; auto. right. right. split; auto.
  exists (rev others), p, fs. split; [|left; eauto]. rewrite <- (rev_involutive (packages st)), P. reflexivity.
Qed.
Lemma careful_last w st past retired g :
  compiler st = new_compiler -> careful w st past retired g [Build All false].
Proof. intros C. cbn [careful]. split; [|split; [|split]]; auto. Qed.

Lemma ordinary_careful : careful_history demo [lib; root] (ordinary ++ [Build All false]).
Proof.
  unfold careful_history. cbv [ordinary app].
  do 4 (apply careful_write; [vm_compute; reflexivity|tauto|]).
  apply careful_start. apply careful_build; [vm_compute; reflexivity|vm_compute; reflexivity|].
  apply careful_write; [vm_compute; reflexivity|tauto|].
  apply careful_start.
  eapply careful_errors;
    [vm_compute; reflexivity|vm_compute; reflexivity|vm_compute; reflexivity|].
  apply careful_write; [vm_compute; reflexivity| |].
  { intros [[]|[H _]]. revert H. apply not_written_not. vm_compute. reflexivity. }
  apply careful_start. apply careful_build; [vm_compute; reflexivity|vm_compute; reflexivity|].
  apply careful_write; [vm_compute; reflexivity| |].
  { intros [[]|[H _]]. revert H. apply not_written_not. vm_compute. reflexivity. }
  apply careful_start. apply careful_last. vm_compute. reflexivity.
Qed.
