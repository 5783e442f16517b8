(** Adding packages: compiler-cli/src/add.rs, and [parse_gleam_add_specifier] of compiler-cli/src/dependencies.rs.

    A file [gleam.toml] is its name and its two tables of dependencies, with ranges as they are written; so is
    a manifest as the file that [add] edits. Both names of the table of development dependencies are one. Left out: the rest of
    these files and their layout, and files that cannot be read or written. *)
From Coq Require Import NArith Bool String List.
From Verif Require Import Text Version Locked Fetch.
Import ListNotations.
Local Open Scope list_scope.

(** ** Specifiers *)

(** [str::split_once] and [str::split] with a character. *)
Definition split_once (c : N) (t : text) : option (text * text) :=
  match span_while (fun x => negb (x =? c)%N) t with
  | (before, _ :: after) => Some (before, after)
  | (_, []) => None
  end.
Fixpoint split (c : N) (t : text) : list text :=
  match t with
  | [] => [[]]
  | x :: t =>
      match split c t with
      | part :: parts => if (x =? c)%N then [] :: part :: parts else (x :: part) :: parts
      | [] => []
      end
  end.
(** [str::parse::<usize>] *)
Definition parse_usize (t : text) : option N :=
  let digits := match t with 43%N :: t => t | _ => t end in
  if forallb is_digit digits && (decimal_value digits <? 2 ^ 64)%N && negb (text_eqb digits [])
  then Some (decimal_value digits) else None.
(** [+] of [usize], as in a release build. *)
Definition usize_succ (n : N) : N := ((n + 1) mod 2 ^ 64)%N.

(** [NotFound] is a panic (add.rs:54-59). *)
Inductive error := InvalidVersionFormat (input : text) | CannotAddSelfAsDependency | ResolutionFailed | NotFound | Unreadable.

(** requirement.rs:39-48 *)
Definition hex (range : text) : requirement + error :=
  match parse_range range with Ok r => inl (Hex range r) | Err _ => inr (InvalidVersionFormat range) end.

(** dependencies.rs:364-416 *)
Definition parse_gleam_add_specifier (specifier : text) : (text * requirement) + error :=
  match split_once 64 specifier with
  | None => match hex (str ">= 0.0.0") with inl r => inl (specifier, r) | inr e => inr e end
  | Some (package, version) =>
      let parts := split 46 version in
      let major := hd [] parts in
      let minor := match parts with _ :: minor :: _ => minor | _ => str "0" end in
      match parse_usize major with
      | None => inr (InvalidVersionFormat version)
      | Some num =>
          let max_ver := decimal (usize_succ num) ++ str ".0.0" in
          match (match parts with
                 | [_] | [_; _] => hex (str ">= " ++ (major ++ str "." ++ minor ++ str ".0") ++ str " and < " ++ max_ver)
                 | [_; _; _] => hex version
                 | _ => inr (InvalidVersionFormat version)
                 end) with
          | inl r => inl (package, r)
          | inr e => inr e
          end
      end
  end.

(** ** Files *)
Inductive entry := Range (spec : text) | AtPath (path : text) | InGit (git ref : text) (path : option text).
Record gleam_toml := GleamToml { toml_name : text; toml_dependencies : list (text * entry); toml_dev_dependencies : list (text * entry) }.
Record manifest_toml := ManifestToml { toml_requirements : list (text * entry); toml_packages : list package }.

Definition written (r : requirement) : entry :=
  match r with Hex spec _ => Range spec | Path path => AtPath path | Git git ref path => InGit git ref path end.
Definition read_entry (e : entry) : option requirement :=
  match e with
  | Range spec => match hex spec with inl r => Some r | inr _ => None end
  | AtPath path => Some (Path path)
  | InGit git ref path => Some (Git git ref path)
  end.
Fixpoint read_entries (l : list (text * entry)) : option (list (text * requirement)) :=
  match l with
  | [] => Some []
  | (n, x) :: l =>
      match read_entry x, read_entries l with
      | Some r, Some l => Some ((n, r) :: l)
      | _, _ => None
      end
  end.
Definition read_config (g : gleam_toml) : option config :=
  match read_entries (toml_dependencies g), read_entries (toml_dev_dependencies g) with
  | Some deps, Some dev_deps => Some (Config (toml_name g) deps dev_deps)
  | _, _ => None
  end.
Definition read_manifest (m : manifest_toml) : option manifest :=
  match read_entries (toml_requirements m) with
  | Some l => Some (Manifest l (toml_packages m))
  | None => None
  end.
Definition written_manifest (m : manifest) : manifest_toml :=
  ManifestToml (map (fun '(n, r) => (n, written r)) (manifest_requirements m)) (packages m).

(** ** The command *)

(** add.rs:115-141 *)
Fixpoint pre_to_string (l : list identifier) : text :=
  match l with
  | [] => []
  | Numeric n :: l => decimal n ++ (match l with [] => [] | _ => str "." end) ++ pre_to_string l
  | AlphaNumeric s :: l => s ++ (match l with [] => [] | _ => str "." end) ++ pre_to_string l
  end.
Definition version_to_string (v : version) : text :=
  decimal (major v) ++ str "." ++ decimal (minor v) ++ str "." ++ decimal (patch v)
  ++ (match pre v with [] => [] | l => str "-" ++ pre_to_string l end)
  ++ (match build v with None => [] | Some b => str "+" ++ b end).

(** 65-71 *)
Definition range_of (v : version) : text :=
  str ">= " ++ version_to_string v ++ str " and < " ++ decimal (u32_succ (major v)) ++ str ".0.0".

(** 72-95 *)
Definition set_dependency (dev : bool) (n range : text) (g : gleam_toml) : gleam_toml :=
  if dev then GleamToml (toml_name g) (toml_dependencies g) (insert n (Range range) (toml_dev_dependencies g))
  else GleamToml (toml_name g) (insert n (Range range) (toml_dependencies g)) (toml_dev_dependencies g).
Definition set_requirement (n range : text) (m : manifest_toml) : manifest_toml :=
  ManifestToml (insert n (Range range) (toml_requirements m)) (toml_packages m).

(** 50-96 *)
Fixpoint insert_new (dev : bool) (ps : list package) (l : list (text * requirement)) (g : gleam_toml) (m : manifest_toml) :
    (gleam_toml * manifest_toml) + error :=
  match l with
  | [] => inl (g, m)
  | (n, _) :: l =>
      match find (fun p => text_eqb (name p) n) ps with
      | None => inr NotFound
      | Some p =>
          let range := range_of (at_version p) in
          insert_new dev ps l (set_dependency dev n range g) (set_requirement n range m)
      end
  end.

Fixpoint parse_all (l : list text) : list (text * requirement) + error :=
  match l with
  | [] => inl []
  | s :: l =>
      match parse_gleam_add_specifier s with
      | inr e => inr e
      | inl r => match parse_all l with inl l => inl (r :: l) | inr e => inr e end
      end
  end.

(** 20-103: what is in the two files then, and the packages as they were got. *)
Definition command (e : environment) (specifiers : list text) (dev : bool) (g : gleam_toml) (w : world) :
    (gleam_toml * manifest_toml * world) + error :=
  match read_config g with
  | None => inr Unreadable
  | Some c =>
      if existsb (fun s => text_eqb s (config_name c)) specifiers then inr CannotAddSelfAsDependency
      else
        match parse_all specifiers with
        | inr e => inr e
        | inl new_requirements =>
            match resolve_and_download_versions e UseYes Dev c (Some (new_requirements, dev)) [] w with
            | (w', Some manifest) =>
                match disc w' with
                | None => inr Unreadable
                | Some on_disc =>
                    match insert_new dev (packages manifest) new_requirements g (written_manifest on_disc) with
                    | inl (g, m) => inl (g, m, w')
                    | inr e => inr e
                    end
                end
            | (_, None) => inr ResolutionFailed
            end
        end
  end.
