(** What stays locked, what is unlocked, and what changes, said without the code. *)
From Coq Require Import List.
From Verif Require Import Text Version Locked.
Import ListNotations.
Local Open Scope list_scope.

(** ** Configurations and manifests *)
Definition declared (c : config) (n : text) (r : requirement) : Prop :=
  In (n, r) (dependencies c) \/ In (n, r) (dev_dependencies c).
(** The tables of a configuration and a manifest have every name once. *)
Definition tables (c : config) : Prop :=
  NoDup (map fst (dependencies c)) /\ NoDup (map fst (dev_dependencies c)).
Definition recorded (m : manifest) (n : text) : Prop := exists r, In (n, r) (manifest_requirements m).
(** The package that counts when a manifest has several of one name: the last. *)
Definition listed (m : manifest) (p : package) : Prop :=
  exists before after, packages m = before ++ p :: after /\ forall q, In q after -> name q <> name p.

(** Requirements that ask for the same. *)
Inductive same : requirement -> requirement -> Prop :=
  | same_hex s a b : same (Hex s a) (Hex s b)
  | same_other r : same r r.
Definition unchanged (c : config) (m : manifest) (n : text) : Prop :=
  exists r r', declared c n r /\ In (n, r') (manifest_requirements m) /\ same r r'.

(** Required, with others between or not, by one of [roots]. *)
Inductive needed (m : manifest) (roots : text -> Prop) : text -> Prop :=
  | needed_root n : roots n -> needed m roots n
  | needed_by p n : needed m roots (name p) -> listed m p -> In n (package_requirements p) -> needed m roots n.

(** [a] requires [b], with others between or not. *)
Inductive requires (m : manifest) : text -> text -> Prop :=
  | requires_one p n : listed m p -> In n (package_requirements p) -> requires m (name p) n
  | requires_more a b c : requires m a b -> requires m b c -> requires m a c.

(** ** Unlocking

    What is asked for, and what only unlocked packages required. *)
Inductive unlocked (m : manifest) (locks : list (text * version)) (asked : list text) : text -> Prop :=
  | unlocked_asked n : In n asked -> In n (map fst locks) -> unlocked m locks asked n
  | unlocked_orphan p n : unlocked m locks asked (name p) -> In p (packages m) -> In n (package_requirements p) ->
      In n (map fst locks) -> ~ recorded m n ->
      (forall q, In q (packages m) -> In n (package_requirements q) -> In (name q) (map fst locks) ->
         unlocked m locks asked (name q)) ->
      unlocked m locks asked n.

(** ** Changes *)
Definition same_kind (s t : source) : Prop :=
  match s, t with
  | HexSource, HexSource | GitSource _ _ _, GitSource _ _ _ | LocalSource _, LocalSource _ => True
  | _, _ => False
  end.
(** A package of the new manifest with one of the old that it comes from. *)
Definition kept (old new : manifest) (p q : package) : Prop :=
  In p (packages old) /\ In q (packages new) /\ name p = name q /\ same_kind (from p) (from q).
Definition is_added (old new : manifest) (n : text) (v : version) : Prop :=
  exists q, In q (packages new) /\ name q = n /\ at_version q = v /\ forall p, ~ kept old new p q.
Definition is_removed (old new : manifest) (n : text) : Prop :=
  exists p, In p (packages old) /\ name p = n /\ forall q, ~ kept old new p q.
Definition is_changed (old new : manifest) (n : text) (v w : version) : Prop :=
  exists p q, kept old new p q /\ name q = n /\ at_version p = v /\ at_version q = w /\ v <> w.
Definition is_moved (old new : manifest) (n c d : text) : Prop :=
  exists p q a b s t, kept old new p q /\ name q = n /\ at_version p = at_version q
    /\ from p = GitSource a c s /\ from q = GitSource b d t /\ (c <> d \/ s <> t).

(** The same packages, but for what they require and where they come from. *)
Definition where_from (s : source) : option (text * option text) :=
  match s with GitSource _ commit path => Some (commit, path) | _ => None end.
Definition same_packages (old new : manifest) : Prop :=
  (forall p, In p (packages old) -> exists q, kept old new p q)
  /\ (forall q, In q (packages new) -> exists p, kept old new p q)
  /\ forall p q, kept old new p q -> at_version p = at_version q /\ where_from (from p) = where_from (from q).

(** ** Requirements that ask for the same, paths once links are followed *)
Definition same_place (canonical : text -> option text) (r r' : requirement) : Prop :=
  match r, r' with
  | Path a, Path b => canonical a = canonical b
  | _, _ => same r r'
  end.
