(** The file system in memory, compiler-core/src/io/memory.rs, the language server's files,
    language-server/src/files.rs, and the directory walker, compiler-core/src/io.rs. *)
From Coq Require Import NArith Arith Bool List.
From Verif Require Import Text.
Import ListNotations.

(** An absolute path: its components, the last first.  [Utf8Path]s are compared by their
    components. *)
Definition path := list text.
Fixpoint path_eqb (p q : path) : bool :=
  match p, q with
  | [], [] => true
  | x :: p, y :: q => text_eqb x y && path_eqb p q
  | _, _ => false
  end.
(** [Utf8Path::parent] *)
Definition parent (p : path) : option path := match p with [] => None | _ :: p => Some p end.
(** [Utf8Path::ancestors]: the path itself first, the root last. *)
Fixpoint ancestors (p : path) : list path := p :: match p with [] => [] | _ :: p => ancestors p end.
(** [p.starts_with(q)] *)
Fixpoint starts_with (p q : path) : bool :=
  path_eqb p q || match p with [] => false | _ :: p => starts_with p q end.

(** [InMemoryFile], memory.rs 361-364.  Buffers are shared by hard links, but no entry's buffer is
    ever changed. *)
Inductive node := File (content : list N) | Directory.
Record entry := Entry { node_of : node; time : N }.
Definition is_dir (e : entry) : bool := match node_of e with Directory => true | File _ => false end.
(** [InMemoryFile::default], 418-427, in seconds; [InMemoryFile::directory], 368-374. *)
Definition default_time : N := 663112800.
Definition directory : entry := Entry Directory default_time.

(** The map [files]. *)
Definition fs := list (path * entry).
Fixpoint get (p : path) (files : fs) : option entry :=
  match files with
  | [] => None
  | (q, e) :: files => if path_eqb q p then Some e else get p files
  end.
Definition remove (p : path) (files : fs) : fs := filter (fun '(q, _) => negb (path_eqb q p)) files.
Definition insert (p : path) (e : entry) (files : fs) : fs := (p, e) :: remove p files.

(** [default], 33-44, and [reset], 51-53. *)
Definition default : fs := [([], directory)].
Definition reset (files : fs) : fs := [].
(** [files], 70-78: the paths of the files. *)
Definition files_of (files : fs) : list path := map fst (filter (fun '(_, e) => negb (is_dir e)) files).
(** [try_set_modification_time], 94-110.  The result says whether it is [Ok]. *)
Definition try_set_modification_time (p : path) (t : N) (files : fs) : bool * fs :=
  match get p files with
  | Some e => (true, insert p (Entry (node_of e) t) files)
  | None => (false, files)
  end.

(** [delete_directory], 114-142: the keys below are removed one after another. *)
Definition delete_directory (p : path) (files : fs) : bool * fs :=
  if match get p files with Some e => negb (is_dir e) | None => false end then (false, files)
  else
    let files := if path_eqb p [] then files else remove p files in
    (true, filter (fun '(q, _) => negb (negb (path_eqb q []) && starts_with q p)) files).

(** [mkdir], 152-175. *)
Fixpoint mkdir_each (l : list path) (files : fs) : bool * fs :=
  match l with
  | [] => (true, files)
  | ancestor :: l =>
      if match get ancestor files with Some e => negb (is_dir e) | None => false end then (false, files)
      else mkdir_each l (insert ancestor directory files)
  end.
Definition mkdir (p : path) (files : fs) : bool * fs := mkdir_each (ancestors p) files.

(** [hardlink], 177-189. *)
Definition hardlink (from to : path) (files : fs) : bool * fs :=
  match get from files with
  | None => (false, files)
  | Some e => (true, insert to e files)
  end.

(** [delete_file], 195-207. *)
Definition delete_file (p : path) (files : fs) : bool * fs :=
  if match get p files with Some e => is_dir e | None => false end then (false, files)
  else (true, remove p files).

(** [write] and [write_bytes], 209-228. *)
Definition write_bytes (p : path) (content : list N) (files : fs) : bool * fs :=
  match (match parent p with Some p => mkdir p files | None => (true, files) end) with
  | (false, files) => (false, files)
  | (true, files) => (true, insert p (Entry (File content) default_time) files)
  end.

(** [exists], [read_bytes], [is_file], [is_directory], [modification_time], 230-316. *)
Definition exists_ (p : path) (files : fs) : bool := match get p files with Some _ => true | None => false end.
Definition read_bytes (p : path) (files : fs) : option (list N) :=
  match get p files with
  | Some (Entry (File content) _) => Some content
  | _ => None
  end.
Definition is_file (p : path) (files : fs) : bool := match get p files with Some e => negb (is_dir e) | None => false end.
Definition is_directory (p : path) (files : fs) : bool := match get p files with Some e => is_dir e | None => false end.
Definition modification_time (p : path) (files : fs) : option N := option_map time (get p files).
(** [copy], 144-146. *)
Definition copy (from to : path) (files : fs) : bool * fs :=
  match read_bytes from files with
  | Some content => write_bytes to content files
  | None => (false, files)
  end.
(** [read_dir], 288-302; it never fails. *)
Definition read_dir (p : path) (files : fs) : list path :=
  filter (fun q => match parent q with Some r => path_eqb p r | None => false end) (map fst files).

(** Operations, and what happens after some of them. *)
Inductive operation :=
  | Write (p : path) (content : list N)
  | Mkdir (p : path)
  | Copy (from to : path)
  | Hardlink (from to : path)
  | DeleteFile (p : path)
  | DeleteDirectory (p : path)
  | SetTime (p : path) (t : N)
  | Reset.
Definition perform (op : operation) (files : fs) : bool * fs :=
  match op with
  | Write p content => write_bytes p content files
  | Mkdir p => mkdir p files
  | Copy from to => copy from to files
  | Hardlink from to => hardlink from to files
  | DeleteFile p => delete_file p files
  | DeleteDirectory p => delete_directory p files
  | SetTime p t => try_set_modification_time p t files
  | Reset => (true, reset files)
  end.

(** [DirWalker::next_file], io.rs 243-281, called until it has no more files.  Paths are
    canonical. *)
Fixpoint walk (fuel : nat) (files : fs) (queue walked : list path) : option (list path) :=
  match fuel with
  | O => None
  | S fuel =>
      match queue with
      | [] => Some []
      | p :: queue =>
          if is_file p files then option_map (cons p) (walk fuel files queue walked)
          else if negb (is_directory p files) then walk fuel files queue walked
          else if existsb (path_eqb p) walked then walk fuel files queue walked
          else walk fuel files (queue ++ read_dir p files) (p :: walked)
      end
  end.
Definition files_in (dir : path) (files : fs) : option (list path) := walk (S (S (length files))) files [dir] [].

(** ** The files of the language server, files.rs

    The disk is any function: other programs write to it, too.  Files are read as texts: what an
    editor sends is one, and what is on the disk is [File] only if it is one. *)
Definition disk := path -> option entry.
Record proxy := Proxy { io : disk; edit_cache : fs }.

(** [write_mem_cache], 49-54; [now] is [SystemTime::now()]. *)
Definition write_mem_cache (p : path) (content : list N) (now : N) (s : proxy) : bool * proxy :=
  let (written, cache) := write_bytes p content (edit_cache s) in
  let (timed, cache) := try_set_modification_time p now cache in
  (written && timed, Proxy (io s) cache).
(** [delete_mem_cache], 56-62. *)
Definition delete_mem_cache (p : path) (s : proxy) : bool * proxy :=
  let (ok, cache) :=
    if is_directory p (edit_cache s) then delete_directory p (edit_cache s)
    else delete_file p (edit_cache s) in
  (ok, Proxy (io s) cache).
(** [read] and [read_bytes], 116-128. *)
Definition proxy_read (p : path) (s : proxy) : option (list N) :=
  match read_bytes p (edit_cache s) with
  | Some content => Some content
  | None => match io s p with Some (Entry (File content) _) => Some content | _ => None end
  end.
(** [is_file], [is_directory], [modification_time], 134-149. *)
Definition proxy_is_file (p : path) (s : proxy) : bool :=
  is_file p (edit_cache s) || match io s p with Some e => negb (is_dir e) | None => false end.
Definition proxy_is_directory (p : path) (s : proxy) : bool :=
  is_directory p (edit_cache s) || match io s p with Some e => is_dir e | None => false end.
Definition proxy_modification_time (p : path) (s : proxy) : option N :=
  match modification_time p (edit_cache s) with
  | Some t => Some t
  | None => option_map time (io s p)
  end.

(** What happens to a server: server.rs 140-160 and 482-535, called for opened and changed files
    ([cache_file_in_memory]) and for saved and closed ones ([discard_in_memory_cache]). *)
Inductive event :=
  | Edited (p : path) (content : list N) (now : N)
  | SavedOrClosed (p : path)
  | DiskChanged (d : disk).
Definition handle (e : event) (s : proxy) : bool * proxy :=
  match e with
  | Edited p content now => write_mem_cache p content now s
  | SavedOrClosed p => delete_mem_cache p s
  | DiskChanged d => (true, Proxy d (edit_cache s))
  end.
Definition start (d : disk) : proxy := Proxy d default.
