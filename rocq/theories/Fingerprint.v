(** When versions are resolved again because of a path dependency: path_dependency_configs_unchanged of
    compiler-cli/src/dependencies.rs, and resolve_versions of compiler-cli/src/dependencies/dependency_manager.rs. *)
From Coq Require Import Arith NArith Bool List.
From Verif Require Import Text Resolve.
Import ListNotations.
Local Open Scope list_scope.
Local Open Scope nat_scope.

(** A requirement: the directory of a path dependency, or another one by its text. *)
Inductive requirement := Path (path : text) | Other (spec : text).
Definition requirement_eqb (a b : requirement) : bool :=
  match a, b with
  | Path p, Path q => text_eqb p q
  | Other s, Other t => text_eqb s t
  | _, _ => false
  end.
Definition requirements := list (text * requirement).

(** Of files there are the gleam.toml of path dependencies, by their directories, with their text and time of
    modification, and the fingerprints, by the names of dependencies (compiler-core/src/paths.rs:149-156). *)
Definition configs := list (text * (text * nat)).
Definition fingerprints := list (text * (N * nat)).

(** The manifest has the requirements that it is for (dependencies.rs:773-788). What the packages were when
    versions were resolved, [resolved_with], is not in the file: it decides which versions were found. *)
Record manifest := Manifest { manifest_requirements : requirements; resolved_with : configs }.
Record world := World {
  now : nat; declared : requirements; config_files : configs; fingerprint_files : fingerprints; manifest_file : option manifest }.

(** dependencies.rs:773-788 *)
Definition is_same_requirements (a b : requirements) : bool :=
  Nat.eqb (length a) (length b)
  && forallb (fun '(n, r) => match get n b with Some q => requirement_eqb r q | None => false end) a.

Section Run.
(** SourceFingerprint::new, compiler-core/src/build.rs:925-935 *)
Variable fingerprint : text -> N.

(** dependencies.rs:815-856, in the order in which the [HashMap] gives requirements. [None] is an error. *)
Fixpoint path_dependency_configs_unchanged (time : nat) (files : configs) (l : requirements) (fs : fingerprints)
  : option bool * fingerprints :=
  match l with
  | [] => (Some true, fs)
  | (_, Other _) :: l => path_dependency_configs_unchanged time files l fs
  | (n, Path p) :: l =>
      match get p files with
      | None => (None, fs)
      | Some (config_text, config_time) =>
          let current_fingerprint := fingerprint config_text in
          match get n fs with
          | Some (previous_fingerprint, fingerprint_time) =>
              if Nat.leb config_time fingerprint_time then path_dependency_configs_unchanged time files l fs
              else if N.eqb previous_fingerprint current_fingerprint then path_dependency_configs_unchanged time files l fs
              else (Some false, insert n (current_fingerprint, time) fs)
          | None => (Some false, insert n (current_fingerprint, time) fs)
          end
      end
  end.

(** What a command did about the manifest. *)
Inductive outcome := Kept | Resolved | Failed.

(** resolve_versions, dependency_manager.rs:95-150, and that what was resolved is written,
    dependency_manager.rs:186-211. Resolution and downloads may not succeed. *)
Definition perform_version_resolution (succeeds : bool) (w : world) : world * outcome :=
  if succeeds
  then (World (now w) (declared w) (config_files w) (fingerprint_files w) (Some (Manifest (declared w) (config_files w))), Resolved)
  else (w, Failed).
Definition resolve_versions (use_manifest updates succeeds : bool) (order : requirements) (w : world) : world * outcome :=
  match manifest_file w with
  | None => perform_version_resolution succeeds w
  | Some m =>
      if use_manifest && negb updates && is_same_requirements (manifest_requirements m) (declared w) then
        let '(unchanged, fs) := path_dependency_configs_unchanged (now w) (config_files w) order (fingerprint_files w) in
        let w := World (now w) (declared w) (config_files w) fs (Some m) in
        match unchanged with
        | None => (w, Failed)
        | Some true => (w, Kept)
        | Some false => perform_version_resolution succeeds w
        end
      else perform_version_resolution succeeds w
  end.

(** What happens: gleam.toml of a path dependency is written, that of the project is, or a command runs. *)
Inductive event :=
  | Write (path config_text : text) (modification_time : nat)
  | Declare (l : requirements)
  | Run (use_manifest updates succeeds : bool) (order : requirements).
Definition tick (w : world) : world :=
  World (S (now w)) (declared w) (config_files w) (fingerprint_files w) (manifest_file w).
Definition happen (w : world) (e : event) : world :=
  tick match e with
       | Write p t m => World (now w) (declared w) (insert p (t, m) (config_files w)) (fingerprint_files w) (manifest_file w)
       | Declare l => World (now w) l (config_files w) (fingerprint_files w) (manifest_file w)
       | Run use updates succeeds order => fst (resolve_versions use updates succeeds order w)
       end.
Definition happened (l : list event) (w : world) : world := fold_left happen l w.
End Run.

(** A project without anything built. *)
Definition start : world := World 0 [] [] [] None.
