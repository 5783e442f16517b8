(** C34, C35, C52: files in memory. *)
From Coq Require Import NArith Arith Bool List Lia String.
From Verif Require Import Text TextProofs MemFs MemFsSpec MemFsProofs MemFsWalk MemFsServer.
Import ListNotations.
Local Open Scope list_scope.

(** C35: what each operation answers and what is there after it, for every path. *)
Theorem C35_each_operation : forall op files ok files', perform op files = (ok, files') ->
  ok = succeeds op (fun p => get p files) /\ forall q, get q files' = after op (fun p => get p files) q.
Proof. exact performed. Qed.
Print Assumptions C35_each_operation.

(** Reads return the last write. *)
Theorem C35_reads_return_the_last_write : forall h files, happens h files ->
  forall p, read_bytes p files = last_written h p.
Proof. exact reads. Qed.
Print Assumptions C35_reads_return_the_last_write.

(** Deleting a directory removes exactly what is in it (and not the root), and fails only for files. *)
Theorem C35_deleting_a_directory : forall p files,
  (fst (delete_directory p files) = false <-> file_at (fun q => get q files) p)
  /\ (file_at (fun q => get q files) p -> snd (delete_directory p files) = files)
  /\ (~ file_at (fun q => get q files) p -> forall q,
        (within p q /\ q <> [] -> get q (snd (delete_directory p files)) = None)
        /\ (~ within p q \/ q = [] -> get q (snd (delete_directory p files)) = get q files)).
Proof.
  intros p files. destruct (perform_spec (DeleteDirectory p) files) as [P1 P2]. cbn [perform succeeds after] in *.
  change (fun q => get q files) with (tree_of files).
  split; [|split].
  - rewrite P1, <- content_file. destruct content_at; split; congruence.
  - intros F. unfold delete_directory. rewrite is_file_content. apply content_file in F.
    destruct content_at; [reflexivity|congruence].
  - intros F q. rewrite P2. rewrite <- content_file in F. destruct (content_at (tree_of files) p); [destruct F; congruence|].
    destruct (path_dec q []) as [->|N]; [tauto|]. destruct within_dec; [|tauto]. split; [auto|]. intros [|]; tauto.
Qed.
Print Assumptions C35_deleting_a_directory.

(** Listings: a directory's listing has its children, each once; [files] the files; and the tests
    agree with reading. *)
Theorem C35_listings : forall h files, happens h files ->
  (forall p, NoDup (read_dir p files) /\ forall q, In q (read_dir p files) <-> exists x, q = x :: p /\ exists_ q files = true)
  /\ (forall p, In p (files_of files) <-> is_file p files = true)
  /\ (forall p, is_file p files = true <-> read_bytes p files <> None)
  /\ (forall p, exists_ p files = xorb (is_file p files) (is_directory p files))
  /\ (forall p, is_file p files && is_directory p files = false).
Proof.
  intros h files H. apply happens_keys in H as ND.
  assert (X : forall p, exists_ p files = true <-> get p files <> None).
  { intros p. unfold exists_. destruct get; split; congruence. }
  split; [|split; [|split; [|split]]].
  - intros p. split; [now apply read_dir_nodup|]. intros q. rewrite read_dir_in. split; intros (x & E & G); exists x; split; auto; now apply X.
  - intros p. rewrite is_file_at. now apply files_of_in.
  - intros p. unfold is_file, read_bytes. destruct (get p files) as [[[c|] m]|]; cbn; split; congruence.
  - intros p. unfold exists_, is_file, is_directory. destruct (get p files) as [[[c|] m]|]; reflexivity.
  - intros p. unfold is_file, is_directory. destruct (get p files) as [[[c|] m]|]; reflexivity.
Qed.
Print Assumptions C35_listings.

(** A new file system has its root and nothing else. *)
Theorem C35_a_new_file_system : forall p,
  get p default = if path_dec [] p then Some (Entry Directory 663112800) else None.
Proof.
  intros p. unfold default. cbn [get]. destruct (path_dec [] p) as [<-|N]; [reflexivity|].
  destruct p; [congruence|reflexivity].
Qed.
Print Assumptions C35_a_new_file_system.

(** The root stays a directory until the file system is reset or something else is put in its
    place. *)
Definition spares_the_root (op : operation) : Prop :=
  match op with
  | Reset => False
  | Write p _ | Copy _ p | Hardlink _ p => p <> []
  | _ => True
  end.
Theorem C35_the_root_stays : forall h files, happens h files -> (forall op ok, In (op, ok) h -> spares_the_root op) ->
  directory_at (fun p => get p files) [].
Proof.
  induction 1 as [|h files op ok files' H IH P]; intros SP.
  - exists 663112800%N. reflexivity.
  - assert (D : directory_at (fun p => get p files) []) by (apply IH; intros o k I; apply (SP o k); right; exact I).
    specialize (SP op ok (or_introl eq_refl)). apply performed in P as [-> P].
    destruct D as [m D]. cbn beta in D.
    assert (WD : forall p, with_directories (fun p => get p files) p [] = Some (Entry Directory 663112800)
                 \/ with_directories (fun p => get p files) p [] = Some (Entry Directory m)).
    { intros p. unfold with_directories. destruct within_dec; [|right; exact D].
      destruct nearest_file as [f|]; [destruct below_dec; [left|right]|left]; auto. }
    assert (WR : forall p c, p <> [] -> directory_at (written (fun p => get p files) p c) []).
    { intros p c N. unfold written, with_entry. destruct p as [|x p]; [congruence|].
      unfold directory_at. cbn beta. destruct (writable (fun p => get p files) (x :: p)); cbn beta.
      - destruct (path_dec (x :: p) []) as [Q|_]; [discriminate|]. destruct (WD p) as [E|E]; eexists; exact E.
      - destruct (WD p) as [E|E]; eexists; exact E. }
    unfold directory_at. setoid_rewrite P.
    change (exists time, after op (fun p => get p files) [] = Some (Entry Directory time)).
    destruct op as [p c|p|from to|from to|p|p|p t|]; cbn [after spares_the_root] in *; try contradiction.
    + apply (WR p c SP).
    + destruct (WD p) as [E|E]; eexists; exact E.
    + destruct content_at; [apply WR; exact SP|eauto].
    + destruct (get from files); [|eauto]. unfold with_entry. destruct (path_dec to []) as [Q|Q]; [contradiction (SP Q)|exists m; exact D].
    + destruct (succeeds (DeleteFile p) (fun p => get p files)) eqn:SU; [|eauto]. unfold with_entry.
      destruct (path_dec p []) as [->|]; [|eauto]. cbn in SU. rewrite D in SU. discriminate.
    + destruct (succeeds (DeleteDirectory p) (fun p => get p files)); [|eauto]. destruct (path_dec [] []); [eauto|congruence].
    + destruct (get p files) as [[n t']|] eqn:G; [|eauto]. unfold with_entry.
      destruct (path_dec p []) as [->|]; [|eauto]. rewrite D in G. injection G as <- _. eauto.
Qed.
Print Assumptions C35_the_root_stays.
Example C35_reset_removes_the_root : exists files,
  happens [(Reset, true)] files /\ get [] files = None.
Proof. exists []. split; [eapply happens_next; [apply happens_nothing|reflexivity]|reflexivity]. Qed.

Local Open Scope string_scope.
Ltac history := first [apply happens_nothing | eapply happens_next; [history|reflexivity]].
Ltac server := first [apply does_nothing | eapply does_next; [server|reflexivity]].
Definition at_ (l : list string) : path := rev (map str l).
(** Everything that exists is in a directory: not after all histories.  A file written in the place
    of a directory; a directory made below a file, though with an error; a link into nothing. *)
Theorem C35_parents_are_directories_refuted :
  (exists files, happens [(Write (at_ ["a"]) [1%N], true); (Write (at_ ["a"; "b"]) [], true)] files
     /\ ~ a_tree (fun p => get p files))
  /\ (exists files, happens [(Mkdir (at_ ["a"; "b"]), false); (Write (at_ ["a"]) [], true)] files
     /\ ~ a_tree (fun p => get p files))
  /\ (exists files, happens [(Hardlink (at_ ["a"]) (at_ ["b"; "c"]), true); (Write (at_ ["a"]) [], true)] files
     /\ ~ a_tree (fun p => get p files)).
Proof.
  repeat split; eexists; (split; [history|]); intros T.
  - destruct (T (str "b") (at_ ["a"])) as [m E]; [vm_compute; discriminate|]. vm_compute in E. discriminate.
  - destruct (T (str "b") (at_ ["a"])) as [m E]; [vm_compute; discriminate|]. vm_compute in E. discriminate.
  - destruct (T (str "c") (at_ ["b"])) as [m E]; [vm_compute; discriminate|]. vm_compute in E. discriminate.
Qed.
Print Assumptions C35_parents_are_directories_refuted.

(** They are if nothing is made below a file or in the place of a directory, and links are made in
    directories. *)
Theorem C35_parents_are_directories_partial : forall h files, happens_carefully h files ->
  a_tree (fun p => get p files).
Proof. exact careful_tree. Qed.
Print Assumptions C35_parents_are_directories_partial.

(** C52: walking finds exactly the files that can be reached through directories, each once, and
    ends; in a tree that is every file below the start. *)
Theorem C52_walking_finds_the_files : forall h files, happens h files ->
  forall dir, exists l, files_in dir files = Some l /\ NoDup l
    /\ forall p, In p l <-> found_from (fun p => get p files) dir p.
Proof. intros h files H dir. apply files_in_spec. now apply happens_keys in H. Qed.
Print Assumptions C52_walking_finds_the_files.

Theorem C52_walking_a_tree : forall h files, happens h files -> a_tree (fun p => get p files) ->
  forall dir, exists l, files_in dir files = Some l /\ NoDup l
    /\ forall p, In p l <-> within dir p /\ is_file p files = true.
Proof.
  intros h files H T dir. destruct (files_in_spec files (happens_keys _ _ H) dir) as (l & E & N & S).
  exists l. split; auto. split; auto. intros p. rewrite S, is_file_at. now apply found_in_tree.
Qed.
Print Assumptions C52_walking_a_tree.

(** C34: as long as no file is edited below an unsaved file, and no directory is closed, the server
    reads the unsaved edits and otherwise the disk. *)
Theorem C34_unsaved_edits_are_read_partial : forall d h s, server_does d h s -> sensible h ->
  (forall p, proxy_read p s =
     match unsaved h p with Some (content, _) => Some content | None => content_at (on_disk d h) p end)
  /\ (forall p, proxy_is_file p s = true <-> unsaved h p <> None \/ file_at (on_disk d h) p)
  /\ (forall p content now, unsaved h p = Some (content, now) -> proxy_modification_time p s = Some now)
  /\ (forall p, unsaved h p = None -> p <> [] -> ~ (exists q, edited h q /\ below p q) ->
        proxy_modification_time p s = option_map time (on_disk d h p)
        /\ (proxy_is_directory p s = true <-> directory_at (on_disk d h) p)).
Proof.
  intros d h s H S. destruct (server_caches d h s H S) as [C D].
  pose proof C as [CF CD]. repeat split.
  - intros p. unfold proxy_read, read_bytes. rewrite D. fold (content_at (on_disk d h) p).
    destruct (unsaved h p) as [[c m]|] eqn:U.
    + apply CF in U. now rewrite U.
    + destruct (get p (edit_cache s)) as [[[c|] m]|] eqn:G; auto. apply CF in G. congruence.
  - unfold proxy_is_file. rewrite orb_true_iff, is_file_at, (file_unsaved h) by exact C. rewrite D.
    intros [|F]; auto. right. destruct (on_disk d h p) as [[[c|] m]|] eqn:E; try discriminate. now exists c, m.
  - unfold proxy_is_file. rewrite orb_true_iff, is_file_at, (file_unsaved h) by exact C. rewrite D.
    intros [|(c & m & F)]; auto. right. now rewrite F.
  - intros p c m U. apply CF in U. unfold proxy_modification_time, modification_time. now rewrite U.
  - unfold proxy_modification_time, modification_time. destruct (get p (edit_cache s)) as [[[c|] m]|] eqn:G.
    + apply CF in G. congruence.
    + exfalso. destruct (CD p) as [|X]; [now exists m|congruence|contradiction].
    + cbn. now rewrite D.
  - unfold proxy_is_directory. rewrite orb_true_iff, is_directory_at, D. intros [X|X].
    + destruct (CD p X) as [|Y]; [congruence|contradiction].
    + destruct (on_disk d h p) as [[[c|] m]|] eqn:E; try discriminate. now exists m.
  - unfold proxy_is_directory. rewrite orb_true_iff, is_directory_at, D. intros [m X]. right. now rewrite X.
Qed.
Print Assumptions C34_unsaved_edits_are_read_partial.

(** A new server shows the disk; the root is a directory. *)
Theorem C34_a_new_server : forall d p,
  proxy_read p (start d) = content_at d p
  /\ (proxy_is_file p (start d) = true <-> file_at d p)
  /\ (proxy_is_directory p (start d) = true <-> p = [] \/ directory_at d p).
Proof.
  intros d p. unfold proxy_read, proxy_is_file, proxy_is_directory, read_bytes, is_file, is_directory, start. cbn [io edit_cache].
  rewrite C35_a_new_file_system. unfold content_at, file_at, directory_at.
  destruct (path_dec [] p) as [<-|N]; destruct (d _) as [[[c|] m]|]; cbn; repeat split; auto; try discriminate;
    try (intros (? & ? & ?); congruence); try (intros [?|(? & ?)]; congruence); eauto.
Qed.
Print Assumptions C34_a_new_server.

(** None of these events is answered with an error. *)
Theorem C34_events_succeed_partial : forall d h s e, server_does d h s -> sensible (e :: h) ->
  fst (handle e s) = true.
Proof. exact server_ok. Qed.
Print Assumptions C34_events_succeed_partial.

(** An edit below an unsaved file is lost, and so are edits below a path that is closed. *)
Theorem C34_unsaved_edits_are_read_refuted :
  (exists s, server_does (fun _ => None)
     [Edited (at_ ["src"; "a.gleam"]) [1%N] 2%N; Edited (at_ ["src"]) [] 1%N] s
     /\ proxy_read (at_ ["src"; "a.gleam"]) s = None)
  /\ (exists s, server_does (fun _ => None)
     [SavedOrClosed (at_ ["src"]); Edited (at_ ["src"; "a.gleam"]) [1%N] 2%N] s
     /\ proxy_read (at_ ["src"; "a.gleam"]) s = None).
Proof.
  split; eexists; (split; [server|vm_compute; reflexivity]).
Qed.
Print Assumptions C34_unsaved_edits_are_read_refuted.

Definition example_history : list (operation * bool) :=
  [(DeleteDirectory (at_ ["a"; "c"]), true); (DeleteFile (at_ ["a"]), false); (Copy (at_ ["a"; "b.txt"]) (at_ ["d"; "e.txt"]), true);
   (Write (at_ ["a"; "b.txt"]) [3%N], true); (Write (at_ ["a"; "c"; "x"]) [2%N], true); (Write (at_ ["a"; "b.txt"]) [1%N], true)].
Lemma careful_write t p :
  match p with [] => None | _ :: p => nearest_file t p end = None ->
  match t p with Some (Entry Directory _) => true | _ => false end = false ->
  (forall a, below a p -> ~ file_at t a) /\ ~ directory_at t p.
Proof.
  intros N D. split.
  - intros a B. destruct p as [|x p]; [now apply below_nil in B|]. apply below_cons in B.
    pose proof (nearest_file_spec t p) as S. rewrite N in S. now apply S.
  - intros [m E]. now rewrite E in D.
Qed.
Ltac carefully := first [apply carefully_nothing
  | eapply carefully_next; [carefully|first [exact I|apply careful_write; reflexivity]|reflexivity]].
Example C35_example : exists files, happens_carefully example_history files
  /\ read_bytes (at_ ["d"; "e.txt"]) files = Some [3%N]
  /\ read_bytes (at_ ["a"; "c"; "x"]) files = None
  /\ read_dir (at_ ["a"]) files = [at_ ["a"; "b.txt"]]
  /\ last_written example_history (at_ ["d"; "e.txt"]) = Some [3%N]
  /\ files_in (at_ []) files = Some [at_ ["d"; "e.txt"]; at_ ["a"; "b.txt"]].
Proof. eexists. split; [carefully|vm_compute; repeat split]. Qed.
Example C34_example :
  let h := [DiskChanged (fun _ => Some (Entry (File [9%N]) 9)); Edited (at_ ["src"; "b"]) [7%N] 4%N; SavedOrClosed (at_ ["src"; "a"]);
            Edited (at_ ["src"; "a"]) [5%N] 2%N] in
  sensible h /\ exists s, server_does (fun _ => None) h s
  /\ proxy_read (at_ ["src"; "a"]) s = Some [9%N] /\ proxy_read (at_ ["src"; "b"]) s = Some [7%N].
Proof.
  split.
  - cbn [sensible unsaved]. split; [split; [split|]|].
    + exact I.
    + auto.
    + left. destruct path_dec; congruence.
    + intros a B. destruct (path_dec (at_ ["src"; "a"]) a) as [E|N]; auto.
  - eexists. split; [server|vm_compute; split; reflexivity].
Qed.
