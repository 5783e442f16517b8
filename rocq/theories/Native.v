(** Copying native files to the build directory:
    compiler-core/src/build/native_file_copier.rs, and what build/package_compiler.rs does with the result.

    A path is that of a file, relative to the directory that is walked: its directories and its
    name, without [.] and [..]. The files of a project are those which the walks of [src], [test]
    and [dev] give (C52 is about the walk), each with its content and modification time; the
    destination has files with content and modification time, and copying sets the time of the
    copy. Left out: tracing, and operations of the file system that fail. *)
From Coq Require Import NArith Bool String List.
From Verif Require Import Text.
From Verif Require Resolve.
Import ListNotations.
Local Open Scope list_scope.

(** ** Paths *)
Record path := Path { directories : list text; file_name : text }.

Fixpoint texts_eqb (a b : list text) : bool :=
  match a, b with
  | [], [] => true
  | x :: a, y :: b => text_eqb x y && texts_eqb a b
  | _, _ => false
  end.
Definition path_eqb (p q : path) : bool :=
  texts_eqb (directories p) (directories q) && text_eqb (file_name p) (file_name q).
Definition components (p : path) : list text := directories p ++ [file_name p].
Fixpoint join (separator : N) (l : list text) : text :=
  match l with
  | [] => []
  | [t] => t
  | t :: l => t ++ separator :: join separator l
  end.
(** [as_str] *)
Definition show (p : path) : text := join 47 (components p).

(** [Utf8Path::file_stem], [extension] and [with_extension], which are those of [std::path]: what is before and
    behind the last dot, unless nothing is before it. *)
Fixpoint rsplit_at_dot (t : text) : option (text * text) :=
  match t with
  | [] => None
  | c :: t =>
      match rsplit_at_dot t with
      | Some (before, after) => Some (c :: before, after)
      | None => if (c =? 46)%N then Some ([], t) else None
      end
  end.
Definition file_stem (p : path) : text :=
  match rsplit_at_dot (file_name p) with
  | Some (c :: before, _) => c :: before
  | _ => file_name p
  end.
Definition extension (p : path) : option text :=
  match rsplit_at_dot (file_name p) with
  | Some (_ :: _, after) => Some after
  | _ => None
  end.
Definition with_extension (p : path) (e : text) : path :=
  Path (directories p) (file_stem p ++ match e with [] => [] | _ => 46%N :: e end).
Definition has_extension (p : path) (e : string) : bool :=
  match extension p with Some x => text_eqb x (str e) | None => false end.
(** [str::replace] of one character. *)
Definition replace (a b : N) (t : text) : text := map (fun c => if (c =? a)%N then b else c) t.

(** [Utf8Path] is ordered by its components. *)
Fixpoint components_cmp (a b : list text) : comparison :=
  match a, b with
  | [], [] => Eq
  | [], _ => Lt
  | _, [] => Gt
  | x :: a, y :: b => match text_cmp x y with Eq => components_cmp a b | c => c end
  end.
Definition path_cmp (p q : path) : comparison := components_cmp (components p) (components q).
Fixpoint insert_sorted (p : path) (l : list path) : list path :=
  match l with
  | [] => [p]
  | q :: l => match path_cmp p q with Gt => q :: insert_sorted p l | _ => p :: q :: l end
  end.
Definition sort_unstable (l : list path) : list path := fold_right insert_sorted [] l.

(** io.rs:454-459 *)
Definition is_native_file_extension (e : text) : bool :=
  existsb (fun x => text_eqb e (str x))
    ["erl"; "hrl"; "ex"; "js"; "mjs"; "cjs"; "jsx"; "ts"; "mts"; "cts"; "tsx"]%string.

(** ** The copier *)
Record file := File { relative : path; content : N; modified : N }.
(** The files in the destination: their content and modification time. *)
Definition files := list (path * (N * N)).
Fixpoint lookup (p : path) (l : files) : option (N * N) :=
  match l with
  | [] => None
  | (q, x) :: l => if path_eqb p q then Some x else lookup p l
  end.
Definition put (p : path) (x : N * N) (l : files) : files := (p, x) :: filter (fun '(q, _) => negb (path_eqb p q)) l.

Inductive error :=
  | DuplicateSourceFile (file : text)
  | ClashingGleamModuleAndNativeFileName (module : text) (gleam_file native_file : path)
  | DuplicateNativeErlangModule (module : text) (first second : path)
  | Panic.

(** 26-35 *)
Record copier := Copier {
  seen_native_files : list path;
  seen_modules : list (text * path);
  to_compile : list path;
  elixir_files_copied : bool;
  destination : files }.
Definition new (d : files) : copier := Copier [] [] [] false d.
Definition saw_module (key : text) (p : path) (c : copier) : copier :=
  Copier (seen_native_files c) (Resolve.insert key p (seen_modules c)) (to_compile c) (elixir_files_copied c) (destination c).

(** 163-170 *)
Definition check_for_duplicate (p : path) (c : copier) : copier + error :=
  if existsb (path_eqb p) (seen_native_files c) then inr (DuplicateSourceFile (show p))
  else inl (Copier (p :: seen_native_files c) (seen_modules c) (to_compile c) (elixir_files_copied c) (destination c)).

(** 194-207 and 244-257 *)
Definition clash (gleam_file native_file : path) : error :=
  ClashingGleamModuleAndNativeFileName (show (with_extension gleam_file [])) gleam_file native_file.

(** 172-216 *)
Definition javascript_key (p : path) : option text :=
  if has_extension p "gleam" then Some (show (with_extension p (str "mjs")))
  else if has_extension p "mjs" then Some (show p)
  else None.
Definition check_for_conflicting_javascript_modules (p : path) (c : copier) : copier + error :=
  match javascript_key p with
  | None => inl c
  | Some key =>
      match Resolve.get key (seen_modules c) with
      | None => inl (saw_module key p c)
      | Some existing => inr (
          if has_extension existing "gleam" then clash existing p
          else if has_extension p "gleam" then clash p existing
          else if path_eqb existing p then DuplicateSourceFile (show existing)
          else Panic)
      end
  end.

(** 218-267 *)
Definition erlang_key (check : bool) (p : path) : option text :=
  if has_extension p "erl" then Some (file_name p)
  else if has_extension p "gleam" && check then Some (replace 47 64 (show (with_extension p (str "erl"))))
  else None.
Definition check_for_conflicting_erlang_modules (check : bool) (p : path) (c : copier) : copier + error :=
  match erlang_key check p with
  | None => inl c
  | Some key =>
      match Resolve.get key (seen_modules c) with
      | None => inl (saw_module key p c)
      | Some existing => inr (
          if has_extension existing "gleam" then clash existing p
          else if has_extension p "gleam" then clash p existing
          else DuplicateNativeErlangModule (file_stem p) existing p)
      end
  end.

(** 131-160; [now] is the time of the copy. *)
Definition copy_to_destination (now : N) (f : file) (c : copier) : copier :=
  let p := relative f in
  if match lookup p (destination c) with Some (_, t) => (modified f <=? t)%N | None => false end then c
  else
    Copier (seen_native_files c) (seen_modules c)
      (if has_extension p "erl" || has_extension p "ex" then to_compile c ++ [p] else to_compile c)
      (elixir_files_copied c || has_extension p "ex")
      (put p (content f, now) (destination c)).

(** 95-161 *)
Definition copy (check : bool) (now : N) (f : file) (c : copier) : copier + error :=
  let p := relative f in
  if has_extension p "gleam" then
    match check_for_conflicting_javascript_modules p c with
    | inr e => inr e
    | inl c => check_for_conflicting_erlang_modules check p c
    end
  else if match extension p with Some e => is_native_file_extension e | None => false end then
    match check_for_duplicate p c with
    | inr e => inr e
    | inl c =>
        match check_for_conflicting_javascript_modules p c with
        | inr e => inr e
        | inl c =>
            match check_for_conflicting_erlang_modules check p c with
            | inr e => inr e
            | inl c => inl (copy_to_destination now f c)
            end
        end
    end
  else inl c.

(** 87-93 *)
Fixpoint copy_files (check : bool) (now : N) (l : list file) (c : copier) : copier * option error :=
  match l with
  | [] => (c, None)
  | f :: l =>
      match copy check now f c with
      | inr e => (c, Some e)
      | inl c => copy_files check now l c
      end
  end.

(** 65-85: what is in the destination, and what is to be compiled and whether any of it is Elixir. *)
Definition run (check : bool) (now : N) (l : list file) (d : files) : files * (list path * bool + error) :=
  match copy_files check now l (new d) with
  | (c, Some e) => (destination c, inr e)
  | (c, None) => (destination c, inl (sort_unstable (to_compile c), elixir_files_copied c))
  end.

(** ** Building the root package for Erlang

    package_compiler.rs:382-419, 272-308 and 256-270, for packages whose Gleam modules are all cached;
    [compiled] has the content from which the bytecode of a file was made, and
    [compiles] says which files the compilers accept: they write no bytecode of one that they do
    not. A failed build of the root package stays as it is (project_compiler.rs:353-362 removes those of other packages only). *)
Record built := Built { in_build : files; compiled : list (path * N) }.
Definition compile (compiles : path -> N -> bool) (d : files) (done : list (path * N)) (p : path) : list (path * N) :=
  match lookup p d with
  | Some (x, _) => if compiles p x then (p, x) :: filter (fun '(q, _) => negb (path_eqb p q)) done else done
  | None => done
  end.
Definition accepts (compiles : path -> N -> bool) (d : files) (p : path) : bool :=
  match lookup p d with Some (x, _) => compiles p x | None => false end.
Definition build (check : bool) (compiles : path -> N -> bool) (now : N) (l : list file) (b : built) : built * bool :=
  match run check now l (in_build b) with
  | (d, inr _) => (Built d (compiled b), false)
  | (d, inl (ps, _)) => (Built d (fold_left (compile compiles d) ps (compiled b)), forallb (accepts compiles d) ps)
  end.
