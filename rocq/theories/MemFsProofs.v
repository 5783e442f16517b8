From Coq Require Import NArith Arith Bool List Lia.
From Verif Require Import Text TextProofs MemFs MemFsSpec.
Import ListNotations.
Local Open Scope nat_scope.

(** ** Paths *)
Lemma path_eqb_eq p : forall q, path_eqb p q = true <-> p = q.
Proof.
  induction p as [|x p IH]; intros [|y q]; cbn; try (split; congruence).
  rewrite andb_true_iff, text_eqb_eq, IH. split; [intros [-> ->]; reflexivity|intros [= -> ->]; auto].
Qed.
Lemma path_eqb_refl p : path_eqb p p = true.
Proof. now apply path_eqb_eq. Qed.
Lemma path_eqb_neq p q : path_eqb p q = false <-> p <> q.
Proof. rewrite <- path_eqb_eq. destruct path_eqb; split; congruence. Qed.
Lemma path_eqb_dec p q : path_eqb p q = if path_dec p q then true else false.
Proof. destruct path_dec as [->|N]; [apply path_eqb_refl|now apply path_eqb_neq]. Qed.

Lemma within_refl p : within p p. Proof. now exists []. Qed.
Lemma within_below q p : within q p <-> p = q \/ below q p.
Proof.
  split.
  - intros [[|x l] ->]; [now left|right]. now exists x, l.
  - intros [->|(x & l & ->)]; [apply within_refl|]. now exists (x :: l).
Qed.
Lemma below_within q p : below q p -> within q p.
Proof. intros. apply within_below. auto. Qed.
Lemma within_nil p : within p [] <-> p = [].
Proof.
  split; [|intros ->; apply within_refl]. intros [l E]. symmetry in E. now apply app_eq_nil in E.
Qed.
Lemma below_nil p : ~ below p [].
Proof. intros (x & l & E). discriminate. Qed.
Lemma within_cons q x p : within q (x :: p) <-> q = x :: p \/ within q p.
Proof.
  split.
  - intros [[|y l] E]; [now left|]. injection E as _ ->. right. now exists l.
  - intros [->|[l ->]]; [apply within_refl|]. now exists (x :: l).
Qed.
Lemma below_cons q x p : below q (x :: p) <-> within q p.
Proof.
  split.
  - intros (y & l & E). injection E as _ ->. now exists l.
  - intros [l ->]. now exists x, l.
Qed.
Lemma within_length q p : within q p -> length q <= length p.
Proof. intros [l ->]. rewrite app_length. lia. Qed.
Lemma below_length q p : below q p -> length q < length p.
Proof. intros (x & l & ->). cbn. rewrite app_length. lia. Qed.
Lemma within_trans a b c : within a b -> within b c -> within a c.
Proof. intros [l ->] [m ->]. exists (m ++ l). now rewrite app_assoc. Qed.
Lemma below_trans a b c : below a b -> within b c -> below a c.
Proof.
  intros (x & l & ->) [m ->]. destruct m as [|y m].
  - now exists x, l.
  - exists y, (m ++ x :: l). cbn. now rewrite <- app_assoc.
Qed.
Lemma not_below_self p : ~ below p p.
Proof. intros H. apply below_length in H. lia. Qed.
(** Two paths above the same one are above each other. *)
Lemma above_both a b p : within a p -> within b p -> within a b \/ below b a.
Proof.
  induction p as [|x p IH].
  - rewrite !within_nil. intros -> ->. left. apply within_refl.
  - rewrite !within_cons. intros [->|A] [->|B].
    + left. apply within_refl.
    + right. now apply below_cons.
    + left. apply within_cons. now right.
    + now apply IH.
Qed.
Lemma ancestors_within q p : In q (ancestors p) <-> within q p.
Proof.
  induction p as [|x p IH]; cbn [ancestors In].
  - rewrite within_nil. intuition congruence.
  - rewrite within_cons, IH. intuition congruence.
Qed.
Lemma starts_with_within p q : MemFs.starts_with p q = true <-> within q p.
Proof.
  induction p as [|x p IH].
  - cbn [MemFs.starts_with]. rewrite orb_false_r, path_eqb_eq, within_nil. split; congruence.
  - cbn [MemFs.starts_with]. rewrite orb_true_iff, path_eqb_eq, IH, within_cons. split; intuition congruence.
Qed.

(** ** Entries *)
Lemma get_remove p q files : get q (remove p files) = if path_dec p q then None else get q files.
Proof.
  unfold remove. induction files as [|[r e] files IH]; cbn; [now destruct path_dec|].
  destruct (path_eqb r p) eqn:E; cbn.
  - apply path_eqb_eq in E as ->. rewrite IH, path_eqb_dec. now destruct path_dec.
  - apply path_eqb_neq in E. rewrite IH, path_eqb_dec. destruct (path_dec r q) as [->|]; auto.
    destruct path_dec; congruence.
Qed.
Lemma get_insert p e q files : get q (insert p e files) = if path_dec p q then Some e else get q files.
Proof. unfold insert. cbn [get]. rewrite path_eqb_dec, get_remove. now destruct path_dec. Qed.
Lemma get_filter f q files : get q (filter (fun '(r, _) => f r) files) = if f q then get q files else None.
Proof.
  induction files as [|[r e] files IH]; cbn; [now destruct (f q)|].
  destruct (f r) eqn:F; cbn; rewrite IH.
  - destruct (path_eqb r q) eqn:E; auto. apply path_eqb_eq in E as ->. now rewrite F.
  - destruct (path_eqb r q) eqn:E; auto. apply path_eqb_eq in E as ->. now rewrite F.
Qed.

Definition tree_of (files : fs) : tree := fun p => get p files.
Lemma content_file t p : content_at t p <> None <-> file_at t p.
Proof.
  unfold content_at, file_at. destruct (t p) as [[[c|] m]|]; split; try congruence; eauto; try (intros (? & ? & ?); congruence).
Qed.
Lemma file_or_directory t p : t p <> None -> file_at t p \/ directory_at t p.
Proof. unfold file_at, directory_at. destruct (t p) as [[[c|] m]|]; try congruence; eauto. Qed.
Lemma not_file_and_directory t p : file_at t p -> directory_at t p -> False.
Proof. intros (c & m & E) (m' & E'). congruence. Qed.
Lemma nearest_file_unfold t p : nearest_file t p =
  match content_at t p, p with
  | Some _, _ => Some p
  | None, [] => None
  | None, _ :: p => nearest_file t p
  end.
Proof. now destruct p. Qed.
Lemma nearest_file_spec t p : match nearest_file t p with
  | Some f => within f p /\ file_at t f /\ forall a, below f a -> within a p -> ~ file_at t a
  | None => forall a, within a p -> ~ file_at t a
  end.
Proof.
  induction p as [|x p IH].
  - rewrite nearest_file_unfold. destruct (content_at t []) eqn:E.
    + split; [apply within_refl|]. split; [apply content_file; congruence|].
      intros a B W. apply within_nil in W as ->. now apply below_nil in B.
    + intros a W. apply within_nil in W as ->. rewrite <- content_file. congruence.
  - rewrite nearest_file_unfold. destruct (content_at t (x :: p)) eqn:E.
    + split; [apply within_refl|]. split; [apply content_file; congruence|].
      intros a B W. apply below_length in B. apply within_length in W. lia.
    + destruct (nearest_file t p) as [f|].
      * destruct IH as (W & F & N). split; [apply within_cons; now right|]. split; auto.
        intros a B W'. apply within_cons in W' as [->|W']; auto. rewrite <- content_file. congruence.
      * intros a W. apply within_cons in W as [->|W]; auto. rewrite <- content_file. congruence.
Qed.

(** ** Making directories *)
Lemma is_file_content p files :
  match get p files with Some e => negb (is_dir e) | None => false end
  = match content_at (tree_of files) p with Some _ => true | None => false end.
Proof. unfold content_at, tree_of. now destruct (get p files) as [[[c|] m]|]. Qed.
Lemma nearest_file_ext t t' p : (forall a, within a p -> content_at t a = content_at t' a) ->
  nearest_file t p = nearest_file t' p.
Proof.
  induction p as [|x p IH]; intros E; rewrite (nearest_file_unfold t), (nearest_file_unfold t').
  - now rewrite (E []) by apply within_refl.
  - rewrite (E (x :: p)) by apply within_refl. destruct content_at; auto. apply IH. intros a W. apply E, within_cons. now right.
Qed.
Lemma below_within_absurd a b : below a b -> within b a -> False.
Proof. intros A B. apply below_length in A. apply within_length in B. lia. Qed.

Lemma mkdir_spec p : forall files,
  fst (mkdir p files) = match nearest_file (tree_of files) p with None => true | Some _ => false end
  /\ forall q, get q (snd (mkdir p files)) = with_directories (tree_of files) p q.
Proof.
  unfold mkdir. induction p as [|x p IH]; intros files.
  - cbn [ancestors mkdir_each]. rewrite is_file_content, nearest_file_unfold. unfold with_directories.
    rewrite nearest_file_unfold. destruct (content_at (tree_of files) []) eqn:E; cbn [fst snd mkdir_each].
    + split; auto. intros q. destruct within_dec as [W|]; auto. apply within_nil in W as ->.
      destruct below_dec as [B|]; auto. now apply below_nil in B.
    + split; auto. intros q. rewrite get_insert. destruct path_dec as [<-|N].
      * destruct within_dec as [|W]; auto. destruct W. apply within_refl.
      * destruct within_dec as [W|]; auto. apply within_nil in W. congruence.
  - cbn [ancestors mkdir_each]. rewrite is_file_content. unfold with_directories.
    rewrite (nearest_file_unfold (tree_of files)). destruct (content_at (tree_of files) (x :: p)) eqn:E; cbn [fst snd].
    + split; auto. intros q. destruct within_dec as [W|]; auto.
      destruct below_dec as [B|]; auto. destruct (below_within_absurd _ _ B W).
    + destruct (IH (insert (x :: p) directory files)) as [H1 H2].
      assert (NF : nearest_file (tree_of (insert (x :: p) directory files)) p = nearest_file (tree_of files) p).
      { apply nearest_file_ext. intros a W. unfold content_at, tree_of. rewrite get_insert.
        destruct path_dec as [<-|]; auto. }
      split; [now rewrite H1, NF|]. intros q. rewrite H2. unfold with_directories. rewrite NF.
      assert (G : tree_of (insert (x :: p) directory files) q = if path_dec (x :: p) q then Some directory else tree_of files q)
        by apply get_insert.
      rewrite !G.
      destruct (within_dec q p) as [W|W], (within_dec q (x :: p)) as [W'|W'].
      * destruct (nearest_file (tree_of files) p) as [f|]; auto. destruct below_dec; auto.
        destruct path_dec as [<-|]; auto. apply within_length in W. cbn in W. lia.
      * destruct W'. apply within_cons. now right.
      * apply within_cons in W' as [->|]; [|contradiction].
        destruct path_dec; [|congruence].
        pose proof (nearest_file_spec (tree_of files) p) as S.
        destruct (nearest_file (tree_of files) p) as [f|]; auto. destruct below_dec as [|B]; auto.
        destruct B. apply below_cons. tauto.
      * destruct path_dec as [<-|]; auto. destruct W'. apply within_refl.
Qed.
Lemma with_directories_content t p q : content_at (with_directories t p) q = content_at t q.
Proof.
  unfold content_at at 1, with_directories. destruct within_dec as [W|]; auto.
  pose proof (nearest_file_spec t p) as S. destruct (nearest_file t p) as [f|].
  - destruct S as (_ & _ & S). destruct below_dec as [B|]; auto.
    destruct (content_at t q) eqn:E; auto. exfalso. apply (S q B W). apply content_file. congruence.
  - destruct (content_at t q) eqn:E; auto. exfalso. apply (S q W). apply content_file. congruence.
Qed.

Lemma write_spec p c files :
  fst (write_bytes p c files) = writable (tree_of files) p
  /\ forall q, get q (snd (write_bytes p c files)) = written (tree_of files) p c q.
Proof.
  unfold write_bytes, written, writable. destruct p as [|x p]; cbn [parent].
  - split; auto. intros q. cbn [snd]. rewrite get_insert. reflexivity.
  - destruct (mkdir_spec p files) as [H1 H2]. destruct (mkdir p files) as [ok files']. cbn [fst snd] in *. subst ok.
    destruct (nearest_file (tree_of files) p); cbn [fst snd].
    + split; auto.
    + split; auto. intros q. rewrite get_insert. unfold with_entry. destruct path_dec; auto.
Qed.

Theorem perform_spec op files :
  fst (perform op files) = succeeds op (tree_of files)
  /\ forall q, get q (snd (perform op files)) = after op (tree_of files) q.
Proof.
  destruct op as [p c|p|a b|a b|p|p|p m|]; cbn [perform succeeds after].
  - apply write_spec.
  - apply mkdir_spec.
  - unfold copy, read_bytes. unfold content_at, tree_of at 1 3. destruct (get a files) as [[[c|] m]|]; cbn; auto. apply write_spec.
  - unfold hardlink. unfold tree_of at 1 2. destruct (get a files) as [e|]; cbn [fst snd]; split; auto.
    intros q. now rewrite get_insert.
  - unfold delete_file. unfold tree_of at 1 2. destruct (get p files) as [[[c|] m]|]; cbn [fst snd is_dir node_of]; split; auto;
      intros q; now rewrite get_remove.
  - unfold delete_directory. rewrite is_file_content. destruct (content_at (tree_of files) p); cbn [fst snd]; split; auto.
    intros q.
    transitivity (if path_dec q [] then get q files else if within_dec p q then None else get q files); [|reflexivity].
    rewrite (get_filter (fun q => negb (negb (path_eqb q []) && MemFs.starts_with q p))).
    assert (R : get q (if path_eqb p [] then files else remove p files)
      = if path_eqb p [] then get q files else if path_dec p q then None else get q files).
    { destruct (path_eqb p []); auto. apply get_remove. }
    rewrite R, !path_eqb_dec. destruct (path_dec q []) as [->|N]; cbn [negb andb].
    + destruct (path_dec p []) as [|M]; auto.
    + destruct (within_dec p q) as [W|W].
      * apply starts_with_within in W. now rewrite W.
      * assert (E : MemFs.starts_with q p = false).
        { destruct (MemFs.starts_with q p) eqn:E; auto. now apply starts_with_within in E. }
        rewrite E. cbn. destruct (path_dec p []); auto. destruct (path_dec p q) as [->|]; auto.
        destruct W. apply within_refl.
  - unfold try_set_modification_time. unfold tree_of at 1 2. destruct (get p files) as [[n m0]|]; cbn [fst snd]; split; auto.
    intros q. now rewrite get_insert.
  - split; auto.
Qed.
Lemma performed op files ok files' : perform op files = (ok, files') ->
  ok = succeeds op (tree_of files) /\ forall q, get q files' = after op (tree_of files) q.
Proof. intros E. pose proof (perform_spec op files) as H. now rewrite E in H. Qed.

(** ** Reads *)
Lemma content_ext t t' p : t p = t' p -> content_at t p = content_at t' p.
Proof. unfold content_at. now intros ->. Qed.
Lemma content_with t p e q : content_at (with_entry t p e) q =
  if path_dec p q then match e with Some (Entry (File c) _) => Some c | _ => None end else content_at t q.
Proof. unfold content_at, with_entry. now destruct path_dec. Qed.
Lemma written_content t p c q : content_at (written t p c) q =
  if writable t p then if path_dec p q then Some c else content_at t q else content_at t q.
Proof.
  unfold written. destruct (writable t p).
  - rewrite content_with. destruct path_dec; auto. destruct p; auto. apply with_directories_content.
  - destruct p; auto. apply with_directories_content.
Qed.
Theorem reads h files : happens h files -> forall p, read_bytes p files = last_written h p.
Proof.
  intros H. assert (R : forall files p, read_bytes p files = content_at (tree_of files) p) by reflexivity.
  induction H as [|h files op ok files' H IH P].
  - intros p. cbn. now destruct p.
  - intros p. apply performed in P as [E A]. rewrite R. rewrite (content_ext _ (after op (tree_of files))) by apply A.
    assert (IH' : forall p, content_at (tree_of files) p = last_written h p) by (intros q; now rewrite <- IH, R).
    clear IH. destruct op as [q c|q|a b|a b|q|q|q m|]; cbn [succeeds after last_written] in *.
    + rewrite written_content, <- E. destruct ok; auto. destruct path_dec; auto.
    + rewrite with_directories_content. destruct ok; auto.
    + rewrite IH' in *. destruct (last_written h a) as [c|] eqn:L; [|now rewrite E, IH'].
      rewrite written_content, <- E. destruct ok; auto. destruct path_dec; [congruence|auto].
    + destruct (tree_of files a) as [e|] eqn:T; subst ok; [|auto]. rewrite content_with.
      destruct path_dec; auto. rewrite <- IH'. unfold content_at. now rewrite T.
    + destruct (tree_of files q) as [[[c|] m]|] eqn:T; subst ok; rewrite ?content_with; auto; destruct path_dec; auto.
    + destruct (content_at (tree_of files) q) eqn:C; subst ok; auto.
      unfold content_at at 1. destruct (path_dec p []) as [->|N].
      * fold (content_at (tree_of files) []). destruct within_dec as [W|]; auto. apply within_nil in W as ->. exact C.
      * destruct within_dec; auto. apply IH'.
    + destruct (tree_of files q) as [[n m0]|] eqn:T; subst ok; auto. rewrite content_with.
      destruct path_dec as [<-|]; auto. rewrite <- IH'. unfold content_at. rewrite T. now destruct n.
    + subst ok. reflexivity.
Qed.

(** ** Keys *)
Lemma remove_keys p files : NoDup (map fst files) -> NoDup (map fst (remove p files)).
Proof.
  induction files as [|[q e] files IH]; cbn; intros ND; [constructor|]. inversion ND; subst.
  destruct (path_eqb q p); cbn; auto. constructor; auto. intros I. apply H1.
  apply in_map_iff in I as (x & <- & I). apply filter_In in I as [I _]. now apply in_map.
Qed.
Lemma filter_keys f files : NoDup (map fst files) -> NoDup (map fst (filter f files : fs)).
Proof.
  induction files as [|[q e] files IH]; cbn; intros ND; [constructor|]. inversion ND; subst.
  destruct (f (q, e)); cbn; auto. constructor; auto. intros I. apply H1.
  apply in_map_iff in I as (x & <- & I). apply filter_In in I as [I _]. now apply in_map.
Qed.
Lemma insert_keys p e files : NoDup (map fst files) -> NoDup (map fst (insert p e files)).
Proof.
  intros ND. cbn. constructor; [|now apply remove_keys]. intros I.
  apply in_map_iff in I as ([q e'] & E & I). cbn in E. subst q. apply filter_In in I as [_ I].
  now rewrite path_eqb_refl in I.
Qed.
Lemma mkdir_keys l : forall files, NoDup (map fst files) -> NoDup (map fst (snd (mkdir_each l files))).
Proof.
  induction l as [|a l IH]; intros files ND; cbn; auto.
  destruct (match get a files with Some e => negb (is_dir e) | None => false end); auto.
  apply IH. now apply insert_keys.
Qed.
Lemma write_keys p c files : NoDup (map fst files) -> NoDup (map fst (snd (write_bytes p c files))).
Proof.
  intros ND. unfold write_bytes. destruct p as [|x p]; cbn [parent].
  - now apply insert_keys.
  - pose proof (mkdir_keys (ancestors p) files ND) as K. unfold mkdir.
    destruct (mkdir_each (ancestors p) files) as [[] files']; auto. now apply insert_keys.
Qed.
Lemma perform_keys op files : NoDup (map fst files) -> NoDup (map fst (snd (perform op files))).
Proof.
  intros ND. destruct op as [p c|p|a b|a b|p|p|p m|]; cbn [perform].
  - now apply write_keys.
  - now apply mkdir_keys.
  - unfold copy. destruct read_bytes; auto. now apply write_keys.
  - unfold hardlink. destruct get; auto. now apply insert_keys.
  - unfold delete_file. destruct (match get p files with Some e => is_dir e | None => false end); auto. now apply remove_keys.
  - unfold delete_directory. destruct (match get p files with Some e => negb (is_dir e) | None => false end); auto.
    apply filter_keys. destruct path_eqb; auto. now apply remove_keys.
  - unfold try_set_modification_time. destruct get; auto. now apply insert_keys.
  - constructor.
Qed.
Lemma happens_keys h files : happens h files -> NoDup (map fst files).
Proof.
  induction 1 as [|h files op ok files' _ IH P]; [repeat constructor; auto|].
  pose proof (perform_keys op files IH). now rewrite P in H.
Qed.
Lemma get_in p e files : NoDup (map fst files) -> (get p files = Some e <-> In (p, e) files).
Proof.
  induction files as [|[q e'] files IH]; cbn; intros ND; [split; [discriminate|tauto]|]. inversion ND; subst.
  destruct (path_eqb q p) eqn:E.
  - apply path_eqb_eq in E as ->. split; [intros [= ->]; auto|]. intros [[= ->]|I]; auto.
    destruct H1. apply in_map_iff. now exists (p, e).
  - apply path_eqb_neq in E. rewrite IH by auto. intuition congruence.
Qed.
Lemma get_key p files : get p files <> None <-> In p (map fst files).
Proof.
  induction files as [|[q e'] files IH]; cbn; [tauto|].
  destruct (path_eqb q p) eqn:E.
  - apply path_eqb_eq in E as ->. split; auto. congruence.
  - apply path_eqb_neq in E. rewrite IH. intuition congruence.
Qed.
Lemma read_dir_in p q files : In q (read_dir p files) <-> exists x, q = x :: p /\ get q files <> None.
Proof.
  unfold read_dir. rewrite filter_In. setoid_rewrite get_key. split.
  - intros [I E]. destruct q as [|x q]; [discriminate|]. cbn in E. apply path_eqb_eq in E as ->. eauto.
  - intros (x & -> & I). split; auto. cbn. apply path_eqb_refl.
Qed.
Lemma read_dir_nodup p files : NoDup (map fst files) -> NoDup (read_dir p files).
Proof. apply NoDup_filter. Qed.
Lemma files_of_in p files : NoDup (map fst files) -> (In p (files_of files) <-> file_at (tree_of files) p).
Proof.
  intros ND. unfold files_of, file_at, tree_of. rewrite in_map_iff. split.
  - intros ([q e] & <- & I). apply filter_In in I as [I D]. cbn. destruct e as [[c|] m]; [|discriminate].
    exists c, m. now apply get_in.
  - intros (c & m & G). apply get_in in G; auto. eexists. split; [|apply filter_In; split; [exact G|]]; reflexivity.
Qed.

(** ** Trees *)
Lemma nearest_none t p : (forall a, within a p -> ~ file_at t a) -> nearest_file t p = None.
Proof.
  intros H. pose proof (nearest_file_spec t p) as S. destruct (nearest_file t p) as [f|]; auto.
  destruct S as (W & F & _). destruct (H f W F).
Qed.
Lemma directory_with t p q : nearest_file t p = None ->
  (directory_at (with_directories t p) q <-> within q p \/ directory_at t q).
Proof.
  intros N. unfold with_directories, directory_at at 1. rewrite N. destruct within_dec as [W|W].
  - split; eauto.
  - split; [right; assumption|]. intros [|]; [contradiction|assumption].
Qed.
Lemma a_tree_directories t p : nearest_file t p = None -> a_tree t -> a_tree (with_directories t p).
Proof.
  intros N T x q E. apply directory_with; auto.
  unfold with_directories in E. rewrite N in E. destruct (within_dec (x :: q) p) as [W|W].
  - left. eapply within_trans; [|exact W]. apply within_cons. right. apply within_refl.
  - right. now apply (T x).
Qed.
Lemma a_tree_entry t p e : a_tree t -> (directory_at t p -> directory_at (with_entry t p (Some e)) p) ->
  (forall x q, p = x :: q -> directory_at t q) -> a_tree (with_entry t p (Some e)).
Proof.
  intros T D P x q E.
  assert (Q : directory_at t q).
  { unfold with_entry in E. destruct path_dec as [F|]; [now apply (P x)|now apply (T x)]. }
  destruct (path_dec p q) as [->|N]; auto.
  destruct Q as [m Q]. exists m. unfold with_entry. destruct path_dec; congruence.
Qed.
Lemma a_tree_written t p c : (forall a, below a p -> ~ file_at t a) -> ~ directory_at t p -> a_tree t -> a_tree (written t p c).
Proof.
  intros B D T. unfold written.
  assert (W : writable t p = true).
  { unfold writable. destruct p as [|x p]; auto. rewrite nearest_none; auto. intros a A. apply B, below_cons, A. }
  rewrite W. destruct p as [|x p].
  - apply a_tree_entry; auto; [tauto|discriminate].
  - assert (N : nearest_file t p = None) by (apply nearest_none; intros a A; apply B, below_cons, A).
    apply a_tree_entry; [now apply a_tree_directories| |].
    + rewrite directory_with by auto. intros [A|A]; [|contradiction]. apply within_length in A. cbn in A. lia.
    + intros y q [= <- <-]. apply directory_with; auto. left. apply within_refl.
Qed.
Lemma a_tree_step op t : careful op t -> a_tree t -> a_tree (after op t).
Proof.
  intros C T. destruct op as [p c|p|a b|a b|p|p|p m|]; cbn [careful after] in *.
  - apply a_tree_written; tauto.
  - apply a_tree_directories; auto. now apply nearest_none.
  - destruct (content_at t a); auto. apply a_tree_written; tauto.
  - destruct C as [(x & p & -> & P) C]. destruct (t a) as [e|] eqn:E; auto. apply a_tree_entry; auto.
    + intros D. destruct (C D) as [m M]. exists m. unfold with_entry. destruct path_dec; congruence.
    + intros y q [= <- <-]. exact P.
  - destruct (succeeds (DeleteFile p) t) eqn:S; auto. cbn in S. intros x q E.
    unfold with_entry in E. destruct path_dec as [|N]; [congruence|].
    destruct (T x q E) as [m M]. exists m. unfold with_entry. destruct path_dec as [->|]; auto.
    rewrite M in S. discriminate.
  - destruct (succeeds (DeleteDirectory p) t) eqn:S; auto. intros x q E.
    destruct (path_dec (x :: q) []); [discriminate|]. destruct within_dec as [|W]; [congruence|].
    destruct (T x q E) as [m M]. exists m. cbn. destruct (path_dec q []); auto. destruct within_dec as [W'|]; auto.
    destruct W. apply within_cons. now right.
  - destruct (t p) as [[n m0]|] eqn:E; auto. intros x q Q.
    assert (Q' : t (x :: q) <> None) by (unfold with_entry in Q; destruct path_dec as [<-|]; congruence).
    destruct (T x q Q') as [m1 M]. unfold directory_at, with_entry. destruct path_dec as [->|]; [|eauto].
    rewrite M in E. injection E as <- <-. eauto.
  - intros x q []. reflexivity.
Qed.
Lemma careful_tree h files : happens_carefully h files -> a_tree (tree_of files).
Proof.
  induction 1 as [|h files op ok files' _ IH C P].
  - intros x q E. cbn in E. congruence.
  - apply performed in P as [_ A]. pose proof (a_tree_step op _ C IH) as S.
    intros x q E. unfold directory_at, tree_of in *. rewrite A in *. destruct (S x q E) as [m M]. eauto.
Qed.
