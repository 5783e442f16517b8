(** Choosing versions of dependencies: compiler-core/src/dependency.rs.

    A [HashMap] is a list of pairs in an arbitrary order, without two pairs for one key. The
    solver is the library pubgrub and is not modelled: [ResolveSpec.session] says how it may
    call the functions of this file. Packages are modelled by their releases, releases by their
    version, whether they are retired, and their requirements. [prioritize], which only tells the solver
    where to start, the fields [app] and [repository] of dependencies, the messages of errors, and the tests of the file are left out. *)
From Coq Require Import NArith Bool String List.
From Verif Require Import Text Version.
Import ListNotations.

(** ** Hash maps with texts as keys *)
Fixpoint get {A} (k : text) (m : list (text * A)) : option A :=
  match m with
  | [] => None
  | (k', a) :: m => if text_eqb k' k then Some a else get k m
  end.
Definition remove {A} (k : text) (m : list (text * A)) : list (text * A) :=
  filter (fun e => negb (text_eqb (fst e) k)) m.
Definition insert {A} (k : text) (a : A) (m : list (text * A)) : list (text * A) := (k, a) :: remove k m.
Definition contains_key {A} (k : text) (m : list (text * A)) : bool :=
  match get k m with Some _ => true | None => false end.

(** ** Versions and requirements *)

(** The derived [PartialEq] of hexpm/src/version.rs:37-44 and 228-232, which unlike the order
    looks at the build metadata. *)
Definition identifier_eqb (a b : identifier) : bool :=
  match a, b with
  | Numeric n, Numeric m => (n =? m)%N
  | AlphaNumeric s, AlphaNumeric t => text_eqb s t
  | _, _ => false
  end.
Fixpoint identifiers_eqb (a b : list identifier) : bool :=
  match a, b with
  | [], [] => true
  | x :: a, y :: b => identifier_eqb x y && identifiers_eqb a b
  | _, _ => false
  end.
Definition build_eqb (a b : option text) : bool :=
  match a, b with
  | None, None => true
  | Some s, Some t => text_eqb s t
  | _, _ => false
  end.
Definition version_eqb (v w : version) : bool :=
  (major v =? major w)%N && (minor v =? minor w)%N && (patch v =? patch w)%N
  && identifiers_eqb (pre v) (pre w) && build_eqb (build v) (build w).

(** [Range] of hexpm/src/version.rs:255-275 (its text and what it allows) and [Dependency]. *)
Record dependency := Dependency { optional : bool; spec : text; allowed : range }.

(** hexpm/src/version.rs:278-289: a version as a requirement. The text of a singleton of pubgrub
    is the text of its version. *)
Definition exactly (v : version) : dependency := Dependency false (show v) (Singleton v).

(** [str::trim], and [str::replace("==", "")] *)
Definition white (c : N) : bool :=
  ((9 <=? c) && (c <=? 13) || (c =? 32) || (c =? 133) || (c =? 160) || (c =? 5760)
   || (8192 <=? c) && (c <=? 8202) || (c =? 8232) || (c =? 8233) || (c =? 8239) || (c =? 8287)
   || (c =? 12288))%N.
Fixpoint trim_start (s : text) : text :=
  match s with
  | c :: s' => if white c then trim_start s' else s
  | [] => []
  end.
Definition trim (s : text) : text := rev (trim_start (rev (trim_start s))).
Fixpoint without_equals (s : text) : text :=
  match s with
  | [] => []
  | c :: s' =>
      match s' with
      | d :: s'' => if (c =? 61)%N && (d =? 61)%N then without_equals s'' else c :: without_equals s'
      | [] => [c]
      end
  end.

(** dependency.rs:167-180 *)
Definition parse_exact_version (ver : text) : option version :=
  let v := trim ver in
  if Text.starts_with (str "==") v || match v with c :: _ => is_digit c | [] => false end then
    match parse (trim (without_equals v)) with Ok v => Some v | Err _ => None end
  else None.

(** ** The requirements of the root, dependency.rs:182-238 *)

(** [Err name] is the error that [name] is locked to an incompatible version. *)
Inductive outcome (A : Type) := Done (a : A) | Incompatible (name : text).
Arguments Done {A}. Arguments Incompatible {A}.

(** The loop of lines 205-235; [base] are the names, texts and ranges of the requirements. *)
Fixpoint add_requirements (base : list (text * (text * range))) (locked : list (text * version))
    (requirements : list (text * dependency)) : outcome (list (text * dependency)) :=
  match base with
  | [] => Done requirements
  | (name, (spec, r)) :: base =>
      match get name locked with
      | None => add_requirements base locked (insert name (Dependency false spec r) requirements)
      | Some v => if contains r v then add_requirements base locked requirements else Incompatible name
      end
  end.
Definition root_dependencies base (locked : list (text * version)) : outcome (list (text * dependency)) :=
  add_requirements base locked (map (fun '(name, v) => (name, exactly v)) locked).

(** dependency.rs:34-42 *)
Fixpoint exact_deps (requirements : list (text * dependency)) : list (text * version) :=
  match requirements with
  | [] => []
  | (name, d) :: l =>
      match parse_exact_version (spec d) with
      | Some v => (name, v) :: exact_deps l
      | None => exact_deps l
      end
  end.

(** ** The provider, dependency.rs:286-467 *)
Record release := Release { of_version : version; retired : bool; requirements : list (text * dependency) }.

(** What the provider remembers: lines 288 and 297. *)
Record store := Store { packages : list (text * list release); optional_dependencies : list (text * range) }.

(** What does not change: lines 289, 290 and 296. [remote] gives the releases that the repository
    has of a package, or fails. *)
Record context := Context {
  remote : text -> option (list release); locked : list (text * version); exact_only : list (text * version) }.

(** 304-319 *)
Definition new (provided : list (text * list release)) (root_name : text) (root : list release) : store :=
  Store (insert root_name root provided) [].

(** [sort_by] is a stable sort. *)
Fixpoint insert_release (r : release) (l : list release) : list release :=
  match l with
  | [] => [r]
  | s :: l' => if le (of_version r) (of_version s) then r :: l else s :: insert_release r l'
  end.
Fixpoint sort_releases (l : list release) : list release :=
  match l with [] => [] | r :: l => insert_release r (sort_releases l) end.

(** 339-347 *)
Definition newest_first (releases : list release) : list release :=
  let releases := rev (sort_releases releases) in
  let (pre, norm) := partition (fun r => is_pre (of_version r)) releases in
  norm ++ pre.

(** 328-351; [None] is an error of the repository. *)
Definition ensure_package_fetched (c : context) (name : text) (s : store) : option store :=
  match get name (packages s) with
  | Some _ => Some s
  | None =>
      match remote c name with
      | None => None
      | Some releases =>
          Some (Store (insert name (newest_first releases) (packages s)) (optional_dependencies s))
      end
  end.

Inductive dependencies := Available (l : list (text * range)) | Unavailable.

(** The loop of lines 390-411 *)
Fixpoint collect (known : list (text * list release)) (l : list (text * dependency))
    (deps opt : list (text * range)) : list (text * range) * list (text * range) :=
  match l with
  | [] => (deps, opt)
  | (name, d) :: l =>
      let r := allowed d in
      if optional d && negb (contains_key name known) then
        let stored := match get name opt with Some stored => Intersection r stored | None => r end in
        collect known l deps (insert name stored opt)
      else
        match get name opt with
        | Some other => collect known l (insert name (Intersection r other) deps) (remove name opt)
        | None => collect known l (insert name r deps) opt
        end
  end.

(** 361-413 *)
Definition is_version (v : version) (o : option version) : bool :=
  match o with Some w => version_eqb w v | None => false end.
Definition get_dependencies (c : context) (package : text) (v : version) (s : store) : option (dependencies * store) :=
  match ensure_package_fetched c package s with
  | None => None
  | Some s =>
      let releases := match get package (packages s) with Some l => l | None => [] end in
      match find (fun r => version_eqb (of_version r) v) releases with
      | None => Some (Unavailable, s)
      | Some r =>
          if retired r && negb (is_version v (get package (locked c))) then Some (Unavailable, s)
          else
            let (deps, opt) := collect (packages s) (requirements r) [] (optional_dependencies s) in
            Some (Available deps, Store (packages s) opt)
      end
  end.

(** [Iterator::max]: the last of the greatest. *)
Fixpoint greatest_from (best : version) (l : list version) : version :=
  match l with
  | [] => best
  | v :: l => greatest_from (match cmp best v with Gt => best | _ => v end) l
  end.
Definition greatest (l : list version) : option version :=
  match l with [] => None | v :: l => Some (greatest_from v l) end.

(** 436-467; [Some (None, s)] is that there is no version to choose. *)
Definition choose_version (c : context) (package : text) (r : range) (s : store) : option (option version * store) :=
  match ensure_package_fetched c package s with
  | None => None
  | Some s =>
      let releases := match get package (packages s) with Some l => l | None => [] end in
      let versions := map of_version releases in
      let versions :=
        match get package (exact_only c) with
        | Some v => filter (version_eqb v) versions
        | None => versions
        end in
      let potential := filter (contains r) versions in
      match greatest (filter (fun v => negb (is_pre v)) potential) with
      | Some v => Some (Some v, s)
      | None => Some (greatest potential, s)
      end
  end.

(** ** resolve_versions, dependency.rs:20-66, up to the call of the solver *)
Definition root_version : version := Version 0 0 0 [] None.
Definition provider remote provided root_name base (locked : list (text * version)) : outcome (context * store) :=
  match root_dependencies base locked with
  | Incompatible name => Incompatible name
  | Done requirements =>
      Done (Context remote locked (exact_deps requirements),
            new provided root_name [Release root_version false requirements])
  end.

(** ** Available updates, dependency.rs:76-165 *)
Definition versions_diff (remote : text -> option (list release)) (check_major_versions : bool)
    (p : text * version) : list (text * (version * version)) :=
  let (package, v) := p in
  match remote package with
  | None => []
  | Some releases =>
      match greatest (filter (fun v => negb (is_pre v)) (map of_version releases)) with
      | None => []
      | Some latest =>
          if if check_major_versions then (major latest <=? major v)%N else le latest v then []
          else [(package, (v, latest))]
      end
  end.
Definition resolve_versions_diffs remote (versions : list (text * version)) (check_major_versions : bool) :=
  flat_map (versions_diff remote check_major_versions) versions.

(** A package of the manifest, and the names of its requirements. The [collect] into a map
    keeps the last of several packages of one name. *)
Record manifest_package := ManifestPackage { mname : text; mversion : version; is_hex : bool }.
Fixpoint to_map {A} (l : list (text * A)) (m : list (text * A)) : list (text * A) :=
  match l with [] => m | (k, a) :: l => to_map l (insert k a m) end.
Definition check_for_major_version_updates remote (pkgs : list manifest_package) (required : list text) :=
  resolve_versions_diffs remote
    (to_map (map (fun p => (mname p, mversion p))
      (filter (fun p => is_hex p && existsb (fun r => text_eqb (mname p) r) required) pkgs)) []) true.
Definition check_for_version_updates remote (pkgs : list manifest_package) :=
  resolve_versions_diffs remote
    (to_map (map (fun p => (mname p, mversion p)) (filter is_hex pkgs)) []) false.
