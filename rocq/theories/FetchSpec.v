(** What [build/packages] should hold, and what resolution is asked. *)
From Coq Require Import List.
From Verif Require Import Text Version Locked LockedSpec Fetch.
Import ListNotations.
Local Open Scope list_scope.

Definition unique (m : manifest) : Prop := NoDup (map name (packages m)).

(** ** The directory *)

(** What is to be found for a package: nothing for path dependencies, which are used where they are. *)
Definition wanted (p : package) : option content :=
  match from p with
  | HexSource => Some (OfHex (at_version p))
  | GitSource _ commit path => Some (OfGit commit path)
  | LocalSource _ => None
  end.
Definition in_place (root : text) (m : manifest) (d : list (text * content)) : Prop :=
  forall p x, In p (packages m) -> name p <> root -> wanted p = Some x ->
    In (name p, x) d /\ forall y, In (name p, y) d -> y = x.

(** Solvers give every package once, and check out git packages that they give. *)
Definition honest (e : environment) : Prop := forall asked locks out ps, solve e asked locks = (out, Some ps) ->
  NoDup (map name ps)
  /\ forall n x, In (n, x) out -> exists p repo commit path, In p ps /\ name p = n
       /\ from p = GitSource repo commit path /\ x = OfGit commit path.

(** Commands one after another in a project that has at first nothing in [build]; before each of them
    the manifest on disc may be replaced by another one, as version control does. *)
Inductive downloads (root : text) (w w' : world) (r : option manifest) : Prop :=
  | downloads_ (e : environment) (use : use_manifest) (md : mode) (c : config)
      (new_package : option (list (text * requirement) * bool)) (updates : list text) (d : option manifest) :
      config_name c = root -> honest e ->
      resolve_and_download_versions e use md c new_package updates (World d (local w) (directory w)) = (w', r) ->
      downloads root w w' r.
Inductive cleans (root : text) (w w' : world) (r : option manifest) : Prop :=
  | cleans_ (e : environment) (c : config) (d : option manifest) :
      config_name c = root -> cleanup e c (World d (local w) (directory w)) = (w', r) -> cleans root w w' r.
Inductive past (root : text) : world -> Prop :=
  | past_start d : past root (World d (LocalPackages [] []) [])
  | past_downloads w w' r : past root w -> downloads root w w' r -> past root w'
  | past_cleans w w' r : past root w -> cleans root w w' r -> past root w'.

(** No package comes from Hex in the version that it had from elsewhere, and a commit has one version. *)
Definition steady (old new : manifest) : Prop :=
  forall p q, In p (packages old) -> In q (packages new) -> name p = name q ->
    (from q = HexSource -> at_version p = at_version q -> from p = HexSource)
    /\ (forall a b commit path, from p = GitSource a commit path -> from q = GitSource b commit path ->
          at_version p = at_version q).
(** Nothing fails, and what is cleaned up was resolved by the command before. *)
Inductive steady_past (root : text) : world -> manifest -> Prop :=
  | steady_first d w m : downloads root (World d (LocalPackages [] []) []) w (Some m) -> unique m -> steady_past root w m
  | steady_downloads w m0 w' m : steady_past root w m0 -> downloads root w w' (Some m) -> unique m -> steady m0 m ->
      steady_past root w' m
  | steady_cleans w m0 w' m : steady_past root w m0 -> cleans root w w' (Some m) ->
      (forall p, In p (packages m) -> In p (packages m0)) -> unique m -> steady_past root w' m.

(** ** What resolution is asked *)

(** What is locked of a manifest by a configuration, and stays so when some packages are updated. *)
Definition stays_locked (c : config) (m : manifest) (n : text) (v : version) : Prop :=
  exists p, listed m p /\ name p = n /\ at_version p = v /\ needed m (unchanged c m) n
    /\ ((exists r, declared c n r) -> recorded m n).
(** What is asked for a dependency: the commit that a manifest has for a git package, if it is locked. *)
Definition asked_for (m : manifest) (locks : list (text * version)) (n : text) (r r' : requirement) : Prop :=
  match r with
  | Git git ref path =>
      (exists p repo commit path', In n (map fst locks) /\ In p (packages m) /\ name p = n
         /\ from p = GitSource repo commit path' /\ r' = Git git commit path)
      \/ r' = r /\ ~ exists p repo commit path', In n (map fst locks) /\ In p (packages m) /\ name p = n
           /\ from p = GitSource repo commit path'
  | _ => r' = r
  end.
