(** What it means for a manifest to survive being written and read. *)
From Coq Require Import String NArith List Bool Permutation Sorted.
From Verif Require Import Text Version VersionSpec ManifestText.
Import ListNotations.
Local Open Scope list_scope.
Local Open Scope N_scope.

(** ** Walking along a path *)

(** The names of the directories of a path, none for the slashes that are doubled or last,
    as an inductive description of its own. *)
Inductive splits : text -> list text -> Prop :=
| nothing : splits [] []
| a_slash s l : splits s l -> splits (47 :: s) l
| a_name n s l : n <> [] -> ~ In 47 n -> (s = [] \/ exists r, s = 47 :: r) -> splits s l ->
    splits (n ++ s) (if text_eqb n (str ".") then l else n :: l).
(** Where one gets from a directory, both as names from the root on, the last first. *)
Fixpoint walk (at_ : list text) (along : list text) : list text :=
  match along with
  | [] => at_
  | n :: along => if text_eqb n (str "..") then walk (tl at_) along else walk (n :: at_) along
  end.
(** [written] leads from the directory [root] to the absolute path [path]. *)
Definition leads_to (root written path : text) : Prop :=
  exists r w p, splits root r /\ splits written w /\ splits path p
    /\ (forall rest, written <> 47 :: rest) /\ walk (rev r) w = rev p.
Definition absolute (s : text) : Prop := exists rest, s = 47 :: rest.
(** A path of which something is written that is the same place. *)
Definition same_path (root path written : text) : Prop :=
  (absolute path -> leads_to root written path) /\ (~ absolute path -> written = path).

(** ** The same manifest *)
Definition same_source (root : text) (s t : source) : Prop :=
  match s, t with
  | FromHex c, FromHex d => c = d
  | FromGit r c p, FromGit r' c' p' => r = r' /\ c = c' /\ p = p'
  | FromLocal p, FromLocal p' => same_path root p p'
  | _, _ => False
  end.
Record same_package (root : text) (p q : package) : Prop := SamePackage {
  same_name : name q = name p;
  same_version : at_version q = at_version p;
  same_tools : build_tools q = build_tools p;
  same_app : otp_app q = otp_app p;
  same_needs : Permutation (needs p) (needs q);
  same_from : same_source root (from p) (from q) }.
Definition same_requirement (root : text) (r q : text * requirement) : Prop :=
  fst q = fst r
  /\ match snd r, snd q with
     | Path p, Path p' => same_path root p p'
     | Path _, _ | _, Path _ => False
     | a, b => a = b
     end.
Definition same_manifest (root : text) (m n : manifest) : Prop :=
  (exists ps, Permutation (packages m) ps /\ Forall2 (same_package root) ps (packages n))
  /\ (exists rs, Permutation (requirements m) rs /\ Forall2 (same_requirement root) rs (requirements n)).

(** ** Manifests that there are *)

(** Lower case letters, digits and underscores, a letter first. *)
Definition a_name_char (c : N) : Prop := (97 <= c <= 122) \/ (48 <= c <= 57) \/ c = 95.
Definition package_name (s : text) : Prop :=
  exists c r, s = c :: r /\ 97 <= c <= 122 /\ Forall a_name_char r.
(** Nothing that has to be escaped between the quotation marks of TOML. *)
Definition plain_char (c : N) : Prop := c <> 34 /\ c <> 92 /\ (32 <= c \/ c = 9) /\ c <> 127.
Definition plain (s : text) : Prop := Forall plain_char s.
(** A path inside of a package. *)
Definition inside (s : text) : Prop := ~ absolute s /\ exists l, splits s l /\ ~ In (str "..") l.
(** An absolute path without parts that lead up, or a relative path. *)
Definition canonical (s : text) : Prop := absolute s -> exists l, splits s l /\ ~ In (str "..") l.

Definition fine_source (strings : text -> Prop) (s : source) : Prop :=
  match s with
  | FromHex c => Forall (fun b => b < 256) c
  | FromGit r c p => strings r /\ strings c /\ match p with Some p => strings p /\ inside p | None => True end
  | FromLocal p => strings p /\ canonical p
  end.
Record fine_package (strings : text -> Prop) (p : package) : Prop := FinePackage {
  fine_name : package_name (name p);
  fine_version : legal_version (at_version p);
  fine_tools : Forall strings (build_tools p);
  fine_app : match otp_app p with Some a => package_name a | None => True end;
  fine_needs : Forall strings (needs p);
  fine_from : fine_source strings (from p) }.
Definition fine_requirement (strings : text -> Prop) (e : text * requirement) : Prop :=
  package_name (fst e)
  /\ match snd e with
     | Hex range => strings range /\ exists r, parse_range range = Ok r
     | Path p => strings p /\ canonical p
     | Git git ref p =>
         strings git /\ strings ref /\ match p with Some p => strings p /\ p <> [] /\ inside p | None => True end
     end.
(** [strings] is what is asked of texts that come from elsewhere. *)
Record fine_manifest (strings : text -> Prop) (m : manifest) : Prop := FineManifest {
  fine_packages : Forall (fine_package strings) (packages m);
  fine_requirements : Forall (fine_requirement strings) (requirements m);
  fine_keys : NoDup (map fst (requirements m)) }.

(** ** The order of things *)

(** A package whose dependencies are listed in another order. *)
Definition reordered (p q : package) : Prop :=
  name q = name p /\ at_version q = at_version p /\ build_tools q = build_tools p /\ otp_app q = otp_app p
  /\ Permutation (needs p) (needs q) /\ from q = from p.
(** The manifest with everything that has no order in another order. *)
Definition shuffled (m n : manifest) : Prop :=
  (exists ps, Permutation (packages m) ps /\ Forall2 reordered ps (packages n))
  /\ Permutation (requirements m) (requirements n).
(** In the order of the dictionary, by [key]. *)
Definition alphabetical {A} (key : A -> text) : list A -> Prop :=
  StronglySorted (fun a b => ~ dictionary N.lt (key b) (key a)).
