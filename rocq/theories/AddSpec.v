(** What specifiers of packages ask for, and the files after adding. *)
From Coq Require Import NArith String List.
From Verif Require Import Text Version VersionSpec Locked LockedSpec Fetch Add.
Import ListNotations.
Local Open Scope list_scope.

Definition release (a b c : N) : version := Version a b c [] None.
(** [x] is from [v] on and before the next major release after it. *)
Definition compatible (v x : version) : Prop := ~ precedes x v /\ precedes x (release (major v + 1) 0 0).

(** [specifier] asks for versions of [package]. *)
Inductive asks : text -> text -> (version -> Prop) -> Prop :=
  | asks_any n : ~ In 64%N n -> asks n n (fun x => ~ precedes x (release 0 0 0))
  | asks_major n a : ~ In 64%N n -> (a + 1 < 2 ^ 32)%N ->
      asks (n ++ str "@" ++ decimal a) n (compatible (release a 0 0))
  | asks_minor n a b : ~ In 64%N n -> (a + 1 < 2 ^ 32)%N -> (b + 1 < 2 ^ 32)%N ->
      asks (n ++ str "@" ++ decimal a ++ str "." ++ decimal b) n (compatible (release a b 0))
  | asks_version n v : ~ In 64%N n -> legal_version v -> build v = None ->
      (major v + 1 < 2 ^ 32 /\ minor v + 1 < 2 ^ 32 /\ patch v + 1 < 2 ^ 32)%N ->
      asks (n ++ str "@" ++ show v) n (fun x => same_precedence x v).

(** Versions without dots but those between their numbers. *)
Definition undotted (v : version) : Prop := match pre v with [] | [_] => True | _ => False end.

(** [specifier] is about [n]: what is before the first [@]. *)
Definition named (specifier n : text) : Prop :=
  ~ In 64%N n /\ (specifier = n \/ exists rest, specifier = n ++ str "@" ++ rest).
Definition names_once (g : gleam_toml) : Prop :=
  NoDup (map fst (toml_dependencies g)) /\ NoDup (map fst (toml_dev_dependencies g)).

(** The package of a manifest that is found by its name: the first. *)
Definition first_named (ps : list package) (n : text) (p : package) : Prop :=
  exists before after, ps = before ++ p :: after /\ name p = n /\ forall q, In q before -> name q <> n.
Definition changed_to (ps : list package) (names : list text) (l l' : list (text * entry)) : Prop :=
  forall n x, In (n, x) l' <->
    (In n names /\ exists p, first_named ps n p
       /\ x = Range (str ">= " ++ show (at_version p) ++ str " and < " ++ decimal (u32_succ (major (at_version p))) ++ str ".0.0"))
    \/ ~ In n names /\ In (n, x) l.

(** The requirements of a configuration and a manifest are the same. *)
Definition agree (canonical : text -> option text) (c : config) (m : manifest) : Prop :=
  (forall n r, declared c n r -> exists r', In (n, r') (manifest_requirements m) /\ same_place canonical r' r)
  /\ (forall n r', In (n, r') (manifest_requirements m) -> exists r, declared c n r /\ same_place canonical r' r).
