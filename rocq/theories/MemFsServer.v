From Coq Require Import NArith Arith Bool List Lia.
From Verif Require Import Text TextProofs MemFs MemFsSpec MemFsProofs MemFsWalk.
Import ListNotations.

(** The cache holds the unsaved edits, and directories above edited paths. *)
Definition caches (h : list event) (cache : fs) : Prop :=
  (forall p c m, get p cache = Some (Entry (File c) m) <-> unsaved h p = Some (c, m))
  /\ (forall p, directory_at (tree_of cache) p -> p = [] \/ exists q, edited h q /\ below p q).

Lemma edited_more e h p : edited h p -> edited (e :: h) p.
Proof. intros (c & m & I). exists c, m. now right. Qed.

Lemma caches_directories h cache e : caches h cache ->
  forall p, directory_at (tree_of cache) p -> p = [] \/ exists q, edited (e :: h) q /\ below p q.
Proof. intros [_ D] p H. destruct (D p H) as [|(q & E & B)]; auto. right. exists q. split; auto. now apply edited_more. Qed.

Lemma file_unsaved h cache p : caches h cache -> (file_at (tree_of cache) p <-> unsaved h p <> None).
Proof.
  intros [F _]. split.
  - intros (c & m & E). apply F in E. congruence.
  - destruct (unsaved h p) as [[c m]|] eqn:U; [|congruence]. intros _. exists c, m. now apply F.
Qed.

Lemma edit_ok h p content now s : caches h (edit_cache s) -> sensible (Edited p content now :: h) ->
  exists cache, write_mem_cache p content now s = (true, Proxy (io s) cache)
    /\ caches (Edited p content now :: h) cache.
Proof.
  intros C [_ A]. pose proof C as [CF CD]. unfold write_mem_cache.
  destruct (write_spec p content (edit_cache s)) as [W1 W2].
  assert (NF : forall a, below a p -> ~ file_at (tree_of (edit_cache s)) a).
  { intros a B. rewrite (file_unsaved h) by exact C. rewrite A; auto. }
  assert (W : writable (tree_of (edit_cache s)) p = true).
  { unfold writable. destruct p as [|x p]; auto. rewrite nearest_none; auto. intros a I. apply NF, below_cons, I. }
  destruct (write_bytes p content (edit_cache s)) as [ok cache]. cbn [fst snd] in *. rewrite W in W1. subst ok.
  assert (G : get p cache = Some (Entry (File content) default_time)).
  { rewrite W2. unfold written. rewrite W. unfold with_entry. destruct path_dec; [reflexivity|congruence]. }
  unfold try_set_modification_time. rewrite G. cbn [andb node_of].
  eexists. split; [reflexivity|].
  assert (Other : forall q, p <> q -> get q (insert p (Entry (File content) now) cache) =
    match p with [] => get q (edit_cache s) | _ :: p' => with_directories (tree_of (edit_cache s)) p' q end).
  { intros q N. rewrite get_insert. destruct path_dec; [congruence|]. rewrite W2. unfold written. rewrite W.
    unfold with_entry. destruct path_dec; [congruence|]. now destruct p. }
  split.
  - intros q c m. cbn [unsaved]. destruct (path_dec p q) as [<-|N].
    + rewrite get_insert. destruct path_dec; [|congruence]. split; intros E; now inversion E.
    + rewrite Other by exact N. rewrite <- CF. destruct p as [|x p]; [reflexivity|].
      unfold with_directories.
      assert (NN : nearest_file (tree_of (edit_cache s)) p = None).
      { apply nearest_none. intros a I. apply NF, below_cons, I. }
      rewrite NN. destruct within_dec as [I|]; [|reflexivity]. split; [discriminate|].
      intros E. exfalso. apply (NF q); [now apply below_cons|]. now exists c, m.
  - intros q [m E]. unfold tree_of in E. destruct (path_dec p q) as [<-|N].
    + rewrite get_insert in E. destruct path_dec; congruence.
    + rewrite Other in E by exact N. destruct p as [|x p].
      * apply (caches_directories h (edit_cache s)); auto. now exists m.
      * unfold with_directories in E. destruct within_dec as [I|].
        -- right. exists (x :: p). split; [exists content, now; now left|]. now apply below_cons.
        -- apply (caches_directories h (edit_cache s)); auto. now exists m.
Qed.

Lemma discard_ok h p s : caches h (edit_cache s) -> sensible (SavedOrClosed p :: h) ->
  exists cache, delete_mem_cache p s = (true, Proxy (io s) cache) /\ caches (SavedOrClosed p :: h) cache.
Proof.
  intros C [_ A]. pose proof C as [CF CD]. unfold delete_mem_cache.
  assert (S : forall q c m, unsaved (SavedOrClosed p :: h) q = Some (c, m) <-> p <> q /\ unsaved h q = Some (c, m)).
  { intros q c m. cbn [unsaved]. destruct path_dec; split; try tauto; try discriminate; intuition congruence. }
  destruct (is_directory p (edit_cache s)) eqn:D.
  - apply is_directory_at in D.
    assert (U : unsaved h p = None).
    { destruct (unsaved h p) as [[c m]|] eqn:U; auto. apply CF in U. destruct D as [m' D]. unfold tree_of in D. congruence. }
    destruct A as [A|A]; [congruence|].
    destruct (perform_spec (DeleteDirectory p) (edit_cache s)) as [P1 P2]. cbn [perform succeeds after] in *.
    assert (CN : content_at (tree_of (edit_cache s)) p = None) by (destruct D as [m D]; unfold content_at; now rewrite D).
    rewrite CN in P1, P2. destruct (delete_directory p (edit_cache s)) as [ok cache]. cbn [fst snd] in *. subst ok.
    eexists. split; [reflexivity|]. split.
    + intros q c m. rewrite S, P2, <- CF. destruct (path_dec q []) as [->|N].
      * split; [|tauto]. intros E. split; auto. intros ->. destruct D as [m' D]. unfold tree_of in *. congruence.
      * destruct within_dec as [W|W].
        -- split; [discriminate|]. intros [N' E]. exfalso. apply within_below in W as [|B]; [congruence|].
           apply CF in E. rewrite A in E; [discriminate|exact B].
        -- split; [|tauto]. intros E. split; auto. intros ->. apply W. apply within_refl.
    + intros q [m E]. unfold tree_of in E. rewrite P2 in E. apply (caches_directories h (edit_cache s)); auto. exists m.
      destruct (path_dec q []); auto. destruct within_dec; [discriminate|auto].
  - destruct (perform_spec (DeleteFile p) (edit_cache s)) as [P1 P2]. cbn [perform succeeds after] in *.
    assert (OK : match tree_of (edit_cache s) p with Some (Entry Directory _) => false | _ => true end = true).
    { unfold is_directory in D. unfold tree_of. now destruct (get p (edit_cache s)) as [[[c|] m]|]. }
    rewrite OK in P1, P2. destruct (delete_file p (edit_cache s)) as [ok cache]. cbn [fst snd] in *. subst ok.
    eexists. split; [reflexivity|]. split.
    + intros q c m. rewrite S, P2, <- CF. unfold with_entry. destruct path_dec; [|tauto]. split; [discriminate|tauto].
    + intros q [m E]. unfold tree_of in E. rewrite P2 in E. unfold with_entry in E. destruct path_dec; [discriminate|].
      apply (caches_directories h (edit_cache s)); auto. now exists m.
Qed.

Lemma server_caches d h s : server_does d h s -> sensible h -> caches h (edit_cache s) /\ io s = on_disk d h.
Proof.
  induction 1 as [|h s e ok s' H IH E]; intros S.
  - split; [|reflexivity]. split.
    + intros p c m. cbn. destruct p; split; intros X; inversion X.
    + intros p [m X]. unfold tree_of in X. cbn in X. destruct p; [now left|discriminate].
  - destruct e as [p c m|p|d']; cbn [handle] in E.
    + destruct IH as [C D]; [apply S|]. destruct (edit_ok h p c m s C S) as (cache & W & C').
      rewrite W in E. injection E as <- <-. split; auto.
    + destruct IH as [C D]; [apply S|]. destruct (discard_ok h p s C S) as (cache & W & C').
      rewrite W in E. injection E as <- <-. split; auto.
    + destruct (IH S) as [[C1 C2] D]. injection E as <- <-. split; [|reflexivity]. split; auto.
      apply (caches_directories h). split; auto.
Qed.
Lemma server_ok d h s e : server_does d h s -> sensible (e :: h) -> fst (handle e s) = true.
Proof.
  intros H S. assert (S' : sensible h) by (destruct e; cbn in S; tauto).
  destruct (server_caches d h s H S') as [C _]. destruct e as [p c m|p|d']; cbn [handle]; auto.
  - destruct (edit_ok h p c m s C S) as (cache & -> & _). reflexivity.
  - destruct (discard_ok h p s C S) as (cache & -> & _). reflexivity.
Qed.
