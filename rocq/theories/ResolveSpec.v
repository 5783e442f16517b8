(** What it means to resolve versions, independently of how dependency.rs goes about it. *)
From Coq Require Import NArith Bool String List.
From Verif Require Import Text Version VersionSpec Resolve.
Import ListNotations.

(** No two values for one key. *)
Definition is_map {A} (m : list (text * A)) : Prop := NoDup (map fst m).

(** [x] is the last that [l] has for [k]. *)
Definition last_for {A} (k : text) (x : A) (l : list (text * A)) : Prop :=
  exists before after, l = before ++ (k, x) :: after /\ ~ In k (map fst after).

(** A version that has been read from some text, such as those of a lock file. *)
Definition readable (v : version) : Prop := exists s, parse s = Ok v.

(** The releases there are of a package: those of the root, those provided, or those of the
    repository. *)
Inductive lists (remote : text -> option (list release)) (provided : list (text * list release))
    (root : text) (of_root : release) : text -> list release -> Prop :=
| lists_root : lists remote provided root of_root root [of_root]
| lists_provided p l : p <> root -> In (p, l) provided -> lists remote provided root of_root p l
| lists_remote p l : p <> root -> ~ In p (map fst provided) -> remote p = Some l ->
    lists remote provided root of_root p l.

(** ** The solver *)

(** What the solver may ask the provider, and the answers. *)
Inductive call :=
| Chosen (package : text) (r : range) (answer : option version)
| Asked (package : text) (v : version) (answer : dependencies).
Definition about (c : call) : text := match c with Chosen p _ _ | Asked p _ _ => p end.

Inductive session (c : context) : store -> list call -> store -> Prop :=
| session_end s : session c s [] s
| session_choose s p r o s1 calls s2 :
    choose_version c p r s = Some (o, s1) -> session c s1 calls s2 -> session c s (Chosen p r o :: calls) s2
| session_ask s p v d s1 calls s2 :
    get_dependencies c p v s = Some (d, s1) -> session c s1 calls s2 -> session c s (Asked p v d :: calls) s2.

(** What a solver that has made [calls] may give as its solution: one version of each package,
    the root among them; all versions but that of the root have been proposed by the provider, and
    the dependencies which the provider named are in the solution too. *)
Record solution (root : text) (calls : list call) (selected : list (text * version)) : Prop := {
  one_version : is_map selected;
  root_selected : In (root, root_version) selected;
  proposed : forall p v, In (p, v) selected -> p <> root -> exists r, In (Chosen p r (Some v)) calls;
  satisfied : forall p v, In (p, v) selected -> exists deps, In (Asked p v (Available deps)) calls
    /\ forall q r, In (q, r) deps -> exists w, In (q, w) selected /\ contains r w = true }.

(** ** The best candidate *)
Definition stable (v : version) : Prop := pre v = [].

(** Of versions satisfying [cand] the highest stable one, or if none is stable the highest. *)
Definition best (cand : version -> Prop) (v : version) : Prop :=
  cand v /\ (stable v \/ forall w, cand w -> ~ stable w)
  /\ forall w, cand w -> (stable w <-> stable v) -> ~ precedes v w.

(** ** The dependencies of a release *)

(** The first of [releases] with the version [v]. *)
Definition first_release (v : version) (releases : list release) (x : release) : Prop :=
  exists before after, releases = before ++ x :: after /\ of_version x = v
    /\ forall y, In y before -> of_version y <> v.

(** What [opt] remembers for [n] applies in addition to [r]. *)
Definition with_remembered (opt : list (text * range)) (n : text) (r r' : range) : Prop :=
  (~ In n (map fst opt) /\ r' = r) \/ exists o, get n opt = Some o /\ r' = Intersection r o.

(** ** Resolution *)

(** The solver finds [selected] by the [calls], for a root named [root] with the requirements
    [base], a lock file [locked], the repository [rem] and packages provided locally. *)
Definition resolved rem provided root base (locked : list (text * version)) calls selected : Prop :=
  exists c s s', provider rem provided root base locked = Done (c, s) /\ session c s calls s'
    /\ solution root calls selected.

(** The provided packages and the requirements of releases are maps. *)
Definition maps (rem : text -> option (list release)) (provided : list (text * list release)) : Prop :=
  is_map provided
  /\ forall p l x, In (p, l) provided \/ rem p = Some l -> In x l -> is_map (requirements x).

(** [white] characters only *)
Definition whitespace (s : text) : Prop := Forall (fun c => white c = true) s.
