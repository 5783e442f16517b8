(** Proofs about one run of the loader. *)
From Coq Require Import NArith Bool List Permutation Lia ZArith ZifyBool ZifyN.
From Verif Require Import Text TextProofs DepTree DepTreeSpec DepTreeProofs Incremental IncrementalSpec.
Import ListNotations.
Local Open Scope list_scope.

(** ** Maps *)
Lemma eqb_true a b : text_eqb a b = true <-> a = b.
Proof. apply text_eqb_eq. Qed.
Lemma eqb_false a b : text_eqb a b = false <-> a <> b.
Proof. rewrite <- eqb_true. destruct (text_eqb a b); split; congruence. Qed.
Lemma eqb_same a : text_eqb a a = true. Proof. now apply eqb_true. Qed.
Lemma eqb_sym a b : text_eqb a b = text_eqb b a.
Proof.
  destruct (text_eqb a b) eqn:E; symmetry.
  - apply eqb_true in E. subst. apply eqb_same.
  - apply eqb_false in E. apply eqb_false. congruence.
Qed.
Lemma text_dec (a b : text) : {a = b} + {a <> b}.
Proof. destruct (text_eqb a b) eqn:E; [left; now apply eqb_true|right; now apply eqb_false]. Qed.

Lemma member_true n l : member n l = true <-> In n l.
Proof.
  unfold member. rewrite existsb_exists. split.
  - intros [x [I E]]. apply eqb_true in E. now subst.
  - intros I. exists n. split; auto. apply eqb_same.
Qed.
Lemma member_false n l : member n l = false <-> ~ In n l.
Proof. rewrite <- member_true. destruct (member n l); split; congruence. Qed.

Lemma get_remove {A} k j (m : list (text * A)) : get j (remove k m) = if text_eqb k j then None else get j m.
Proof.
  induction m as [|[i a] m IH]; cbn [remove filter get fst].
  - now destruct (text_eqb k j).
  - destruct (text_eqb i k) eqn:Eik; cbn [negb get].
    + unfold remove in IH. rewrite IH. apply eqb_true in Eik. subst i. now destruct (text_eqb k j).
    + unfold remove in IH. rewrite IH. destruct (text_eqb i j) eqn:Eij; auto.
      apply eqb_true in Eij. subst i. rewrite eqb_sym in Eik. now rewrite Eik.
Qed.
Lemma get_insert {A} k j (a : A) m : get j (insert k a m) = if text_eqb k j then Some a else get j m.
Proof. unfold insert. cbn [get]. rewrite get_remove. now destruct (text_eqb k j). Qed.
Lemma get_in {A} k (a : A) m : get k m = Some a -> In (k, a) m.
Proof.
  induction m as [|[j b] m IH]; cbn [get]; [discriminate|]. destruct (text_eqb j k) eqn:E.
  - intros H. injection H as <-. apply eqb_true in E. subst. now left.
  - intros H. right. auto.
Qed.
Lemma get_some {A} k (m : list (text * A)) : In k (map fst m) <-> exists a, get k m = Some a.
Proof.
  split.
  - induction m as [|[j b] m IH]; cbn; [easy|]. intros [->|I].
    + rewrite eqb_same. eauto.
    + destruct (text_eqb j k); eauto.
  - intros [a G]. apply get_in in G. now apply in_map with (f := fst) in G.
Qed.
Lemma get_nodup {A} k (a : A) m : NoDup (map fst m) -> In (k, a) m -> get k m = Some a.
Proof.
  induction m as [|[j b] m IH]; cbn; [easy|]. intros ND. inversion ND as [|? ? N1 N2]; subst. intros [E|I].
  - injection E as -> ->. now rewrite eqb_same.
  - destruct (text_eqb j k) eqn:E; auto. apply eqb_true in E. subst.
    apply in_map with (f := fst) in I. cbn in I. contradiction.
Qed.

(** ** The store *)
Definition deletes (ns : list text) : list op := flat_map delete ns.
Lemma applied_app s a b : applied s (a ++ b) = applied (applied s a) b.
Proof. apply fold_left_app. Qed.
Lemma delete_metas s n k : get k (metas (applied s (delete n))) = if text_eqb n k then None else get k (metas s).
Proof. cbn. apply get_remove. Qed.
Lemma delete_caches s n k : get k (caches (applied s (delete n))) = if text_eqb n k then None else get k (caches s).
Proof. cbn. apply get_remove. Qed.
Lemma deletes_metas ns : forall s k,
  get k (metas (applied s (deletes ns))) = if member k ns then None else get k (metas s).
Proof.
  induction ns as [|n ns IH]; intros s k; [reflexivity|]. cbn [deletes flat_map].
  rewrite applied_app. fold (deletes ns). rewrite IH, delete_metas. unfold member. cbn [existsb].
  rewrite (eqb_sym k n). destruct (text_eqb n k), (existsb (text_eqb k) ns); reflexivity.
Qed.
Lemma deletes_caches ns : forall s k,
  get k (caches (applied s (deletes ns))) = if member k ns then None else get k (caches s).
Proof.
  induction ns as [|n ns IH]; intros s k; [reflexivity|]. cbn [deletes flat_map].
  rewrite applied_app. fold (deletes ns). rewrite IH, delete_caches. unfold member. cbn [existsb].
  rewrite (eqb_sym k n). destruct (text_eqb n k), (existsb (text_eqb k) ns); reflexivity.
Qed.

(** ** Reading one file *)
Lemma read_source_ok w f u : read_source w f = inl u <-> read w f u.
Proof.
  unfold read_source, read. destruct (parse w (c_text (f_content f))) as [l|].
  - split.
    + intros H. injection H as <-. cbn. auto.
    + destruct u. cbn. intros (-> & -> & -> & H). now injection H as ->.
  - split; [discriminate|]. intros (_ & _ & _ & H). discriminate H.
Qed.
Lemma read_unique w f u v : read w f u -> read w f v -> u = v.
Proof.
  destruct u, v. unfold read. cbn. intros (-> & -> & -> & H) (-> & -> & -> & G).
  rewrite H in G. now injection G as ->.
Qed.

Section Load.
Variables (w : world) (req lsp : bool) (inc : list text) (s : store).

Lemma load_cached f g is : load w req lsp inc s f = inl (Cached g is) <->
  g = f /\ usable w req lsp inc s f
  /\ exists m, recorded s (f_name f) m /\ is = m_imports m
     /\ ((m_mtime m < f_mtime f)%N -> exists u, read w f u).
Proof.
  unfold load, usable, recorded, read_new. destruct (get (f_name f) (metas s)) as [m|] eqn:G.
  2:{ split; [destruct (read_source w f); discriminate|]. intros (_ & (m & H & _) & _). discriminate H. }
  destruct (req && negb (m_codegen m)) eqn:C.
  { split; [destruct (read_source w f); discriminate|]. intros (_ & (m' & H & K & _) & _).
    injection H as <-. apply andb_prop in C. destruct C as [-> C]. rewrite (K eq_refl) in C. discriminate C. }
  assert (CG : req = true -> m_codegen m = true).
  { intros ->. cbn in C. now destruct (m_codegen m). }
  destruct (N.ltb_spec (m_mtime m) (f_mtime f)) as [L|L].
  - destruct (read_source w f) as [u|e] eqn:R.
    2:{ split; [discriminate|]. intros (_ & _ & m' & H & -> & K). injection H as <-.
        destruct (K L) as [u U]. apply read_source_ok in U. congruence. }
    pose proof (proj1 (read_source_ok w f u) R) as U.
    assert (u_content u = f_content f) as Ec by apply U. rewrite Ec.
    destruct (m_fingerprint m =? fingerprint w (c_text (f_content f)))%N eqn:F; cbn [negb].
    2:{ split; [discriminate|]. intros (_ & (m' & H & _ & [K|[K _]]) & _); injection H as <-; lia. }
    destruct (lsp && member (f_name f) inc) eqn:I.
    { split; [discriminate|]. intros (_ & (m' & H & _ & [K|[_ K]]) & _); injection H as <-; [lia|].
      destruct K. apply andb_prop in I. rewrite member_true in I. exact I. }
    split.
    + intros H. injection H as <- <-. split; [reflexivity|]. split.
      * exists m. split; [reflexivity|]. split; [exact CG|]. right. split; [lia|].
        intros [-> K]. apply member_true in K. rewrite K in I. discriminate I.
      * exists m. split; [reflexivity|]. split; [reflexivity|]. eauto.
    + intros (-> & _ & m' & H & -> & _). now injection H as <-.
  - split.
    + intros H. injection H as <- <-. split; [reflexivity|]. split.
      * exists m. split; [reflexivity|]. split; [exact CG|]. left. lia.
      * exists m. split; [reflexivity|]. split; [reflexivity|]. lia.
    + intros (-> & _ & m' & H & -> & _). now injection H as <-.
Qed.
Lemma load_new f u : load w req lsp inc s f = inl (New u) <-> ~ usable w req lsp inc s f /\ read w f u.
Proof.
  rewrite <- read_source_ok.
  unfold load, usable, recorded, read_new. destruct (get (f_name f) (metas s)) as [m|] eqn:G.
  2:{ split.
      - destruct (read_source w f); [|discriminate]. intros H. injection H as ->. split; [|reflexivity].
        intros (m & H & _). discriminate H.
      - intros [_ ->]. reflexivity. }
  destruct (req && negb (m_codegen m)) eqn:C.
  { split.
    - destruct (read_source w f); [|discriminate]. intros H. injection H as ->. split; [|reflexivity].
      intros (m' & H & K & _). injection H as <-. apply andb_prop in C. destruct C as [-> C].
      rewrite (K eq_refl) in C. discriminate C.
    - intros [_ ->]. reflexivity. }
  assert (CG : req = true -> m_codegen m = true).
  { intros ->. cbn in C. now destruct (m_codegen m). }
  destruct (N.ltb_spec (m_mtime m) (f_mtime f)) as [L|L].
  - destruct (read_source w f) as [v|e] eqn:R.
    2:{ split; [discriminate|]. intros [_ H]. discriminate H. }
    assert (u_content v = f_content f) as Ec by (apply read_source_ok in R; apply R). rewrite Ec.
    destruct (m_fingerprint m =? fingerprint w (c_text (f_content f)))%N eqn:F; cbn [negb].
    2:{ split.
        - intros H. injection H as ->. split; [|reflexivity].
          intros (m' & H & _ & [K|[K _]]); injection H as <-; lia.
        - intros [_ H]. now injection H as ->. }
    destruct (lsp && member (f_name f) inc) eqn:I.
    { split.
      - intros H. injection H as ->. split; [|reflexivity].
        intros (m' & H & _ & [K|[_ K]]); injection H as <-; [lia|].
        destruct K. apply andb_prop in I. rewrite member_true in I. exact I.
      - intros [_ H]. now injection H as ->. }
    split; [discriminate|]. intros [K _]. destruct K. exists m. split; [reflexivity|]. split; [exact CG|].
    right. split; [lia|]. intros [-> K]. apply member_true in K. rewrite K in I. discriminate I.
  - split; [discriminate|]. intros [K _]. destruct K. exists m. split; [reflexivity|]. split; [exact CG|].
    left. lia.
Qed.
(** The only error of [load]. *)
Lemma load_error f e : load w req lsp inc s f = inr e -> read_source w f = inr e.
Proof.
  unfold load, read_new. destruct (get (f_name f) (metas s)) as [m|].
  2:{ destruct (read_source w f); congruence. }
  destruct (req && negb (m_codegen m)). { destruct (read_source w f); congruence. }
  destruct (m_mtime m <? f_mtime f)%N; [|discriminate].
  destruct (read_source w f); [|congruence].
  destruct (negb _); [discriminate|]. now destruct (lsp && _).
Qed.
Lemma load_name f i : load w req lsp inc s f = inl i -> input_name i = f_name f.
Proof.
  destruct i as [u|g is]; intros H.
  - apply load_new in H. apply H.
  - apply load_cached in H. destruct H as (-> & _). reflexivity.
Qed.
Lemma usable_dec f : usable w req lsp inc s f \/ ~ usable w req lsp inc s f.
Proof.
  unfold usable, recorded. destruct (get (f_name f) (metas s)) as [m|].
  2:{ right. intros (m & H & _). discriminate H. }
  destruct (implb req (m_codegen m)) eqn:C.
  2:{ right. intros (m' & H & K & _). injection H as <-. destruct req; [|discriminate].
      rewrite K in C; auto. discriminate C. }
  assert (CG : req = true -> m_codegen m = true) by (intros ->; exact C).
  destruct (N.leb_spec (f_mtime f) (m_mtime m)) as [L|L].
  { left. exists m. auto. }
  destruct (N.eqb_spec (m_fingerprint m) (fingerprint w (c_text (f_content f)))) as [F|F].
  2:{ right. intros (m' & H & _ & [K|[K _]]); injection H as <-; [lia|congruence]. }
  destruct (lsp && member (f_name f) inc) eqn:I.
  - right. intros (m' & H & _ & [K|[_ K]]); injection H as <-; [lia|].
    destruct K. apply andb_prop in I. rewrite member_true in I. exact I.
  - left. exists m. split; [reflexivity|]. split; [exact CG|]. right. split; auto.
    intros [-> K]. apply member_true in K. rewrite K in I. discriminate I.
Qed.

(** ** Reading all files *)
Lemma load_files_ok fs : forall defined defined' is,
  load_files w req lsp inc s defined fs = inl (defined', is) <->
  Forall2 (fun f i => load w req lsp inc s f = inl i) fs is
  /\ NoDup (map f_name fs) /\ (forall f, In f fs -> ~ In (f_name f) defined)
  /\ defined' = rev (map f_name fs) ++ defined.
Proof.
  induction fs as [|f fs IH]; intros defined defined' is; cbn [load_files].
  - split.
    + intros H. injection H as <- <-. repeat split; try constructor. easy.
    + intros (F & _ & _ & ->). inversion F. reflexivity.
  - destruct (load w req lsp inc s f) as [i|e] eqn:L.
    2:{ split; [discriminate|]. intros (F & _). inversion F. congruence. }
    destruct (member (f_name f) defined) eqn:M.
    { split; [discriminate|]. intros (_ & _ & D & _). apply member_true in M.
      destruct (D f (or_introl eq_refl) M). }
    apply member_false in M.
    destruct (load_files w req lsp inc s (f_name f :: defined) fs) as [[d is']|e] eqn:R.
    + specialize (proj1 (IH _ _ _) R). clear IH R. intros (F & ND & D & ->). split.
      * intros H. injection H as <- <-. split; [now constructor|]. split.
        { cbn. constructor; auto. intros I. apply in_map_iff in I. destruct I as (g & E & I).
          destruct (D g I). left. congruence. }
        split.
        { intros g [<-|I]; auto. intros J. destruct (D g I). now right. }
        cbn. now rewrite <- app_assoc.
      * intros (F' & _ & _ & ->). inversion F' as [|? j ? l J F'']; subst.
        assert (is' = l) as ->.
        { clear - F F''. revert l F''. induction F as [|f i fs is L F IH]; intros l G; inversion G; subst; auto.
          f_equal; auto. congruence. }
        cbn. rewrite <- app_assoc. cbn. congruence.
    + split; [discriminate|]. intros (F & ND & D & ->). exfalso. inversion F as [|? j ? l J F']; subst.
      inversion ND as [|? ? N1 N2]; subst.
      assert (inr e = inl (rev (map f_name fs) ++ f_name f :: defined, l)) as K; [|discriminate K].
      rewrite <- R. apply IH. split; auto. split; auto. split; auto.
      intros g I [E|J']; [|exact (D g (or_intror I) J')].
      apply N1. rewrite E. now apply in_map.
Qed.
End Load.

(** ** The loop over the sequence *)
Inductive processes (w : world) (is : list input) : list text -> store -> list text -> list op -> list text -> loaded -> Prop :=
| processes_nil s stale : processes w is [] s stale [] stale {| to_compile := []; from_cache := [] |}
| processes_new n l s stale os stale' ld u :
    find_input n is = Some (New u) ->
    processes w is l s (u_name u :: stale) os stale' ld ->
    processes w is (n :: l) s stale os stale' {| to_compile := u :: to_compile ld; from_cache := from_cache ld |}
| processes_stale n l s stale os stale' ld f imports d u :
    find_input n is = Some (Cached f imports) -> In d imports -> In d stale -> read w f u ->
    processes w is l (applied s (delete (f_name f))) (f_name f :: stale) os stale' ld ->
    processes w is (n :: l) s stale (delete (f_name f) ++ os) stale'
      {| to_compile := u :: to_compile ld; from_cache := from_cache ld |}
| processes_cached n l s stale os stale' ld f imports a :
    find_input n is = Some (Cached f imports) -> (forall d, In d imports -> ~ In d stale) ->
    get (f_name f) (caches s) = Some a ->
    processes w is l s stale os stale' ld ->
    processes w is (n :: l) s stale os stale'
      {| to_compile := to_compile ld; from_cache := (f_name f, a) :: from_cache ld |}.

Lemma any_stale imports stale : existsb (fun d => member d stale) imports = true <-> exists d, In d imports /\ In d stale.
Proof. rewrite existsb_exists. split; intros [d [I J]]; exists d; split; auto; now apply member_true. Qed.
Lemma none_stale imports stale : existsb (fun d => member d stale) imports = false <-> forall d, In d imports -> ~ In d stale.
Proof.
  split.
  - intros E d I J. assert (existsb (fun d => member d stale) imports = true) by (apply any_stale; eauto). congruence.
  - intros H. destruct (existsb _ imports) eqn:E; auto. apply any_stale in E. destruct E as (d & I & J).
    destruct (H d I J).
Qed.

Lemma process_ok w is l : forall s stale os stale' ld,
  process w is l s stale = (os, stale', inl ld) <-> processes w is l s stale os stale' ld.
Proof.
  induction l as [|n l IH]; intros s stale os stale' ld; cbn [process].
  { split.
    - intros H. injection H as <- <- <-. constructor.
    - intros H. inversion H. reflexivity. }
  destruct (find_input n is) as [[u|f imports]|] eqn:F.
  - destruct (process w is l s (u_name u :: stale)) as [[os1 st1] [ld1|e]] eqn:P; split; intros H.
    + injection H as <- <- <-. eapply processes_new; eauto. now apply IH.
    + inversion H; subst; try congruence.
      match goal with K : find_input n is = _ |- _ => rewrite F in K; injection K as <- end.
      match goal with K : processes _ _ _ _ _ _ _ _ |- _ => apply IH in K; rewrite P in K; injection K as -> -> -> end.
      reflexivity.
    + discriminate H.
    + inversion H; subst; try congruence.
      match goal with K : find_input n is = _ |- _ => rewrite F in K; injection K as <- end.
      match goal with K : processes _ _ _ _ _ _ _ _ |- _ => apply IH in K; rewrite P in K; discriminate K end.
  - destruct (existsb (fun d => member d stale) imports) eqn:E.
    + pose proof (proj1 (any_stale _ _) E) as (d & Id & Sd).
      destruct (read_source w f) as [u|e] eqn:R.
      2:{ split; [discriminate|]. intros H. inversion H; subst; try congruence.
          - match goal with K : find_input n is = _ |- _ => rewrite F in K; injection K as <- <- end.
            match goal with K : read w f _ |- _ => apply read_source_ok in K; congruence end.
          - match goal with K : find_input n is = _ |- _ => rewrite F in K; injection K as <- <- end.
            match goal with K : forall d, In d imports -> ~ In d stale |- _ => destruct (K d Id Sd) end. }
      destruct (process w is l (applied s (delete (f_name f))) (f_name f :: stale)) as [[os1 st1] [ld1|e]] eqn:P; split; intros H.
      * injection H as <- <- <-. eapply processes_stale; eauto. { now apply read_source_ok. } now apply IH.
      * inversion H; subst; try congruence.
        -- match goal with K : find_input n is = _ |- _ => rewrite F in K; injection K as <- <- end.
           match goal with K : read w f ?v |- _ => apply read_source_ok in K; rewrite R in K; injection K as <- end.
           match goal with K : processes _ _ _ _ _ _ _ _ |- _ => apply IH in K; rewrite P in K; injection K as -> -> -> end.
           reflexivity.
        -- match goal with K : find_input n is = _ |- _ => rewrite F in K; injection K as <- <- end.
           match goal with K : forall d, In d imports -> ~ In d stale |- _ => destruct (K d Id Sd) end.
      * discriminate H.
      * inversion H; subst; try congruence.
        -- match goal with K : find_input n is = _ |- _ => rewrite F in K; injection K as <- <- end.
           match goal with K : processes _ _ _ _ _ _ _ _ |- _ => apply IH in K; rewrite P in K; discriminate K end.
        -- match goal with K : find_input n is = _ |- _ => rewrite F in K; injection K as <- <- end.
           match goal with K : forall d, In d imports -> ~ In d stale |- _ => destruct (K d Id Sd) end.
    + pose proof (proj1 (none_stale _ _) E) as NS.
      destruct (get (f_name f) (caches s)) as [a|] eqn:G.
      2:{ split; [discriminate|]. intros H. inversion H; subst; try congruence.
          - match goal with K : find_input n is = _ |- _ => rewrite F in K; injection K as <- <- end.
            exfalso. eapply NS; eauto. }
      destruct (process w is l s stale) as [[os1 st1] [ld1|e]] eqn:P; split; intros H.
      * injection H as <- <- <-. eapply processes_cached; eauto. now apply IH.
      * inversion H; subst; try congruence.
        -- match goal with K : find_input n is = _ |- _ => rewrite F in K; injection K as <- <- end.
           exfalso. eapply NS; eauto.
        -- match goal with K : find_input n is = _ |- _ => rewrite F in K; injection K as <- <- end.
           match goal with K : processes _ _ _ _ _ _ _ _ |- _ => apply IH in K; rewrite P in K; injection K as -> -> -> end.
           congruence.
      * discriminate H.
      * inversion H; subst; try congruence.
        -- match goal with K : find_input n is = _ |- _ => rewrite F in K; injection K as <- <- end.
           exfalso. eapply NS; eauto.
        -- match goal with K : find_input n is = _ |- _ => rewrite F in K; injection K as <- <- end.
           match goal with K : processes _ _ _ _ _ _ _ _ |- _ => apply IH in K; rewrite P in K; discriminate K end.
  - split; [discriminate|]. intros H. inversion H; subst; congruence.
Qed.
