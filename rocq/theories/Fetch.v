(** Getting the packages of a project: compiler-cli/src/dependencies/dependency_manager.rs,
    compiler-cli/src/dependencies.rs and compiler-core/src/hex.rs.

    The state is the manifest on disc, the file [packages.toml] and the directory [build/packages].
    What a run is given from outside is in [environment]: the solver with the provided packages,
    what canonical paths are, whether the configurations of path dependencies changed, and which
    downloads fail. A release of Hex is identified by its version, the content of a git
    repository by its commit. Left out: locks of the build, the cache of tarballs and of bare
    clones, caches of builds, messages, major versions, and files that cannot be read or written. *)
From Coq Require Import NArith Bool List.
From Verif Require Import Text Version Locked.
Import ListNotations.
Local Open Scope list_scope.

(** ** State *)

(** [LocalPackages] and [GitState], dependencies.rs:631-647 *)
Record local_packages := LocalPackages {
  local_versions : list (text * version); local_git : list (text * (text * option text)) }.
(** What a directory of [build/packages] holds. *)
Inductive content := OfHex (v : version) | OfGit (commit : text) (path : option text).
Record world := World { disc : option manifest; local : local_packages; directory : list (text * content) }.

Inductive mode := Dev | Prod | Lsp.
Inductive use_manifest := UseYes | UseNo.
Record environment := Environment {
  stack : nat;
  canonical : text -> option text;
  path_dependency_configs_unchanged : option bool;
  (** [solve asked locked]: what is checked out on the way, and the packages. *)
  solve : list (text * requirement) -> list (text * version) -> list (text * content) * option (list package);
  fails : text -> bool }.

(** ** Resolving *)

(** dependency_manager.rs:31-44 *)
Definition ensure_packages_exist_locally (m : manifest) (names : list text) : bool :=
  forallb (fun n => existsb (fun p => text_eqb (name p) n) (packages m)) names.

(** config.rs:217-222 *)
Definition dependencies_for (md : mode) (c : config) : list (text * requirement) + text :=
  match md with
  | Dev | Lsp => all_direct_dependencies c
  | Prod => inl (dependencies c)
  end.

(** dependency_manager.rs:264-283: the ref that a git dependency is resolved from. *)
Definition ref_to_use (locks : list (text * version)) (m : option manifest) (n ref : text) : text :=
  if contains_key n locks then
    match m with
    | None => ref
    | Some m =>
        match find (fun p => text_eqb (name p) n) (packages m) with
        | Some p => match from p with GitSource _ commit _ => commit | _ => ref end
        | None => ref
        end
    end
  else ref.
Definition asked (locks : list (text * version)) (m : option manifest) (dependencies : list (text * requirement)) :
    list (text * requirement) :=
  map (fun '(n, r) =>
    match r with
    | Git git ref path => (n, Git git (ref_to_use locks m n ref) path)
    | _ => (n, r)
    end) dependencies.

Definition checked_out (l : list (text * content)) (d : list (text * content)) : list (text * content) :=
  fold_left (fun d '(n, x) => insert n x d) l d.

(** 232-342: the directory, and the manifest if there is one. *)
Definition perform_version_resolution (e : environment) (md : mode) (c : config) (m : option manifest)
    (packages_to_update : list text) (d : list (text * content)) : list (text * content) * option manifest :=
  match dependencies_for md c, locked (stack e) c m with
  | inl dependencies, Locks locks =>
      match (match packages_to_update with [] => Some locks | _ => unlock_packages locks packages_to_update m end) with
      | None => (d, None)
      | Some locks =>
          let (out, result) := solve e (asked locks m dependencies) locks in
          (checked_out out d,
           match result, all_direct_dependencies c with
           | Some packages, inl requirements => Some (Manifest requirements packages)
           | _, _ => None
           end)
      end
  | _, _ => (d, None)
  end.

(** 90-150 *)
Definition resolve_versions (e : environment) (use : use_manifest) (md : mode) (c : config)
    (packages_to_update : list text) (w : world) : list (text * content) * option resolved :=
  match disc w with
  | None =>
      let (d, m) := perform_version_resolution e md c None [] (directory w) in
      (d, match m with
          | Some m => if ensure_packages_exist_locally m packages_to_update then Some (all_added m) else None
          | None => None
          end)
  | Some existing =>
      if ensure_packages_exist_locally existing packages_to_update then
        let resolve requirements_changed for_resolver :=
          let (d, m) := perform_version_resolution e md c for_resolver packages_to_update (directory w) in
          (d, match m with
              | Some m => Some (Resolved m (between_manifests existing m) requirements_changed)
              | None => None
              end) in
        match use with
        | UseNo => resolve true None
        | UseYes =>
            match all_direct_dependencies c with
            | inr _ => (directory w, None)
            | inl requirements =>
                match is_same_requirements (canonical e) (manifest_requirements existing) requirements with
                | None => (directory w, None)
                | Some same =>
                    match (match packages_to_update with
                           | [] => if same then path_dependency_configs_unchanged e else Some false
                           | _ => Some false
                           end) with
                    | None => (directory w, None)
                    | Some true => (directory w, Some (no_change existing))
                    | Some false => resolve (negb same) (Some existing)
                    end
                end
            end
        end
      else (directory w, None)
  end.

(** ** Local packages, dependencies.rs:649-738 *)
Definition extra_local_packages (l : local_packages) (m : manifest) : list (text * version) :=
  filter (fun '(n, v) => negb (existsb (fun p => text_eqb (name p) n && version_eqb (at_version p) v) (packages m)))
    (local_versions l).

Definition has_fresh (l : local_packages) (p : package) : bool :=
  match from p with
  | GitSource _ commit path =>
      match get (name p) (local_git l) with
      | Some (c, s) => text_eqb c commit && path_eqb s path
      | None => false
      end
  | HexSource | LocalSource _ =>
      match get (name p) (local_versions l) with
      | Some v => version_eqb v (at_version p)
      | None => false
      end
  end.
Definition is_local (p : package) : bool := match from p with LocalSource _ => true | _ => false end.
Definition is_hex (p : package) : bool := match from p with HexSource => true | _ => false end.
Definition is_git (p : package) : bool := match from p with GitSource _ _ _ => true | _ => false end.
Definition missing_local_packages (l : local_packages) (m : manifest) (root : text) : list package :=
  filter (fun p => negb (has_fresh l p))
    (filter (fun p => negb (is_local p)) (filter (fun p => negb (text_eqb (name p) root)) (packages m))).

Definition from_manifest (m : manifest) : local_packages :=
  LocalPackages
    (collect (map (fun p => (name p, at_version p)) (packages m)))
    (collect (flat_map (fun p => match from p with
                                 | GitSource _ commit path => [(name p, (commit, path))]
                                 | _ => []
                                 end) (packages m))).

(** 541-579: the directories that are removed. *)
Definition remove_extra_packages (l : local_packages) (m : manifest) (d : list (text * content)) : list (text * content) :=
  fold_left (fun d '(n, _) => remove n d) (extra_local_packages l m) d.

(** ** Downloading *)

(** hex.rs:265-292: nothing is written where there is a directory. *)
Definition ensure_package_in_build_directory (e : environment) (d : list (text * content)) (p : package) :
    list (text * content) :=
  if fails e (name p) then d
  else if contains_key (name p) d then d
  else insert (name p) (OfHex (at_version p)) d.

(** 327-344: all are tried before the first error is given. *)
Definition download_hex_packages (e : environment) (ps : list package) (root : text) (d : list (text * content)) :
    list (text * content) * bool :=
  let ps := filter (fun p => negb (text_eqb root (name p))) ps in
  (fold_left (ensure_package_in_build_directory e) ps d, forallb (fun p => negb (fails e (name p))) ps).

(** dependencies.rs:526-534 *)
Fixpoint download_git_packages (e : environment) (ps : list package) (d : list (text * content)) :
    list (text * content) * bool :=
  match ps with
  | [] => (d, true)
  | p :: ps =>
      match from p with
      | GitSource _ commit path =>
          if fails e (name p) then (d, false)
          else download_git_packages e ps (insert (name p) (OfGit commit path) d)
      | _ => download_git_packages e ps d
      end
  end.

(** 480-539 *)
Definition add_missing_packages (e : environment) (m : manifest) (l : local_packages) (root : text)
    (d : list (text * content)) : list (text * content) * bool :=
  let missing := missing_local_packages l m root in
  let (d, ok) := download_hex_packages e (filter is_hex missing) root d in
  if ok then download_git_packages e (filter is_git missing) d else (d, false).

(** ** Commands *)

(** dependency_manager.rs:174-183: packages that a command adds to the configuration. *)
Definition with_new (new_package : option (list (text * requirement) * bool)) (c : config) : config :=
  match new_package with
  | None => c
  | Some (l, dev) =>
      fold_left (fun c '(n, r) =>
        if dev then Config (config_name c) (dependencies c) (insert n r (dev_dependencies c))
        else Config (config_name c) (insert n r (dependencies c)) (dev_dependencies c)) l c
  end.

(** 152-230 *)
Definition resolve_and_download_versions (e : environment) (use : use_manifest) (md : mode) (c : config)
    (new_package : option (list (text * requirement) * bool)) (packages_to_update : list text) (w : world) :
    world * option manifest :=
  let c := with_new new_package c in
  match resolve_versions e use md c packages_to_update w with
  | (d, None) => (World (disc w) (local w) d, None)
  | (d, Some r) =>
      let m := of_manifest r in
      let d := remove_extra_packages (local w) m d in
      match add_missing_packages e m (local w) (config_name c) d with
      | (d, false) => (World (disc w) (local w) d, None)
      | (d, true) => (World (if any_changes r then Some m else disc w) (from_manifest m) d, Some m)
      end
  end.

(** dependencies.rs:268-322 *)
Definition cleanup (e : environment) (c : config) (w : world) : world * option manifest :=
  match disc w with
  | None => (w, None)
  | Some old =>
      match remove_extra_requirements (stack e) c old with
      | inl (Some m) => (World (Some m) (from_manifest m) (remove_extra_packages (local w) m (directory w)), Some m)
      | _ => (w, None)
      end
  end.
