(** What a file system is expected to do, on functions from paths to entries. *)
From Coq Require Import NArith Arith Bool List Lia.
From Verif Require Import Text MemFs.
Import ListNotations.

Definition path_dec (p q : path) : {p = q} + {p <> q} := list_eq_dec (list_eq_dec N.eq_dec) p q.

(** [p] is [q] or is somewhere below it; [p] is below it. *)
Definition within (q p : path) : Prop := exists l, p = l ++ q.
Definition below (q p : path) : Prop := exists x l, p = (x :: l) ++ q.
Definition within_dec (q p : path) : {within q p} + {~ within q p}.
Proof.
  destruct (path_dec (firstn (length p - length q) p ++ q) p) as [E|N].
  - left. eexists. symmetry. exact E.
  - right. intros [l ->]. apply N. rewrite app_length, Nat.add_sub, firstn_app, Nat.sub_diag, firstn_all, app_nil_r.
    reflexivity.
Defined.
Definition below_dec (q p : path) : {below q p} + {~ below q p}.
Proof.
  destruct (within_dec q p) as [W|N].
  - destruct (path_dec p q) as [->|D].
    + right. intros (x & l & E). apply (f_equal (@length _)) in E. rewrite app_length in E. simpl in E. lia.
    + left. destruct W as [[|x l] ->]; [now destruct D|]. now exists x, l.
  - right. intros (x & l & ->). apply N. now exists (x :: l).
Defined.

Notation tree := (path -> option entry).
Definition file_at (t : tree) (p : path) : Prop := exists content time, t p = Some (Entry (File content) time).
Definition directory_at (t : tree) (p : path) : Prop := exists time, t p = Some (Entry Directory time).
Definition content_at (t : tree) (p : path) : option (list N) :=
  match t p with Some (Entry (File content) _) => Some content | _ => None end.

(** The nearest file on the way from [p] to the root. *)
Fixpoint nearest_file (t : tree) (p : path) : option path :=
  match content_at t p, p with
  | Some _, _ => Some p
  | None, [] => None
  | None, _ :: p => nearest_file t p
  end.
(** Directories are made from [p] upwards, as far as there is no file. *)
Definition with_directories (t : tree) (p : path) : tree := fun q =>
  if within_dec q p then
    match nearest_file t p with
    | Some f => if below_dec f q then Some (Entry Directory 663112800) else t q
    | None => Some (Entry Directory 663112800)
    end
  else t q.
Definition with_entry (t : tree) (p : path) (e : option entry) : tree := fun q => if path_dec p q then e else t q.

(** Writing fails below a file. *)
Definition writable (t : tree) (p : path) : bool :=
  match p with [] => true | _ :: p => match nearest_file t p with None => true | Some _ => false end end.
Definition written (t : tree) (p : path) (content : list N) : tree :=
  let t' := match p with [] => t | _ :: p => with_directories t p end in
  if writable t p then with_entry t' p (Some (Entry (File content) 663112800)) else t'.

(** Whether an operation succeeds. *)
Definition succeeds (op : operation) (t : tree) : bool :=
  match op with
  | Write p _ => writable t p
  | Mkdir p => match nearest_file t p with None => true | Some _ => false end
  | Copy from to => match content_at t from with Some _ => writable t to | None => false end
  | Hardlink from _ => match t from with Some _ => true | None => false end
  | DeleteFile p => match t p with Some (Entry Directory _) => false | _ => true end
  | DeleteDirectory p => match content_at t p with Some _ => false | None => true end
  | SetTime p _ => match t p with Some _ => true | None => false end
  | Reset => true
  end.
(** What is there after an operation. *)
Definition after (op : operation) (t : tree) : tree :=
  match op with
  | Write p content => written t p content
  | Mkdir p => with_directories t p
  | Copy from to => match content_at t from with Some content => written t to content | None => t end
  | Hardlink from to => match t from with Some e => with_entry t to (Some e) | None => t end
  | DeleteFile p => if succeeds op t then with_entry t p None else t
  | DeleteDirectory p =>
      if succeeds op t then fun q => if path_dec q [] then t q else if within_dec p q then None else t q
      else t
  | SetTime p time => match t p with Some (Entry n _) => with_entry t p (Some (Entry n time)) | None => t end
  | Reset => fun _ => None
  end.

(** Histories, the newest operation first, with what the operations answered. *)
Inductive happens : list (operation * bool) -> fs -> Prop :=
  | happens_nothing : happens [] default
  | happens_next h files op ok files' : happens h files -> perform op files = (ok, files') ->
      happens ((op, ok) :: h) files'.

(** The content last given to the file at [p], if it is still there. *)
Fixpoint last_written (h : list (operation * bool)) (p : path) : option (list N) :=
  match h with
  | [] => None
  | (_, false) :: h => last_written h p
  | (Write q content, true) :: h => if path_dec q p then Some content else last_written h p
  | (Mkdir _, true) :: h | (SetTime _ _, true) :: h => last_written h p
  | (Copy from to, true) :: h | (Hardlink from to, true) :: h =>
      if path_dec to p then last_written h from else last_written h p
  | (DeleteFile q, true) :: h => if path_dec q p then None else last_written h p
  | (DeleteDirectory q, true) :: h => if within_dec q p then None else last_written h p
  | (Reset, true) :: _ => None
  end.

(** Everything that exists is in a directory. *)
Definition a_tree (t : tree) : Prop := forall x p, t (x :: p) <> None -> directory_at t p.
(** Uses of the file system that keep it so: nothing is made below a file or in place of a
    directory, and links are made in directories. *)
Definition careful (op : operation) (t : tree) : Prop :=
  match op with
  | Write p _ | Copy _ p => (forall a, below a p -> ~ file_at t a) /\ ~ directory_at t p
  | Mkdir p => forall a, within a p -> ~ file_at t a
  | Hardlink from to =>
      (exists x p, to = x :: p /\ directory_at t p) /\ (directory_at t to -> directory_at t from)
  | _ => True
  end.
Inductive happens_carefully : list (operation * bool) -> fs -> Prop :=
  | carefully_nothing : happens_carefully [] default
  | carefully_next h files op ok files' : happens_carefully h files -> careful op (fun p => get p files) ->
      perform op files = (ok, files') -> happens_carefully ((op, ok) :: h) files'.

(** A file found by going down from [dir]. *)
Definition found_from (t : tree) (dir p : path) : Prop :=
  within dir p /\ file_at t p /\ forall a, within dir a -> below a p -> directory_at t a.

(** ** The language server's files *)
Inductive server_does (d : disk) : list event -> proxy -> Prop :=
  | does_nothing : server_does d [] (start d)
  | does_next h s e ok s' : server_does d h s -> handle e s = (ok, s') -> server_does d (e :: h) s'.

(** The newest edit of [p], unless it was saved or closed since, and when it was made. *)
Fixpoint unsaved (h : list event) (p : path) : option (list N * N) :=
  match h with
  | [] => None
  | Edited q content now :: h => if path_dec q p then Some (content, now) else unsaved h p
  | SavedOrClosed q :: h => if path_dec q p then None else unsaved h p
  | DiskChanged _ :: h => unsaved h p
  end.
Fixpoint on_disk (d : disk) (h : list event) : disk :=
  match h with
  | [] => d
  | DiskChanged d :: _ => d
  | _ :: h => on_disk d h
  end.
(** No file is edited below an unsaved file; what is saved or closed was a file. *)
Fixpoint sensible (h : list event) : Prop :=
  match h with
  | [] => True
  | Edited p _ _ :: h => sensible h /\ forall a, below a p -> unsaved h a = None
  | SavedOrClosed p :: h => sensible h /\ (unsaved h p <> None \/ forall q, below p q -> unsaved h q = None)
  | DiskChanged _ :: h => sensible h
  end.
Definition edited (h : list event) (p : path) : Prop := exists content now, In (Edited p content now) h.
