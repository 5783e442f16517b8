(** What types mean. *)
From Coq Require Import NArith Arith Bool List.
From Verif Require Import Text Unify.
Import ListNotations.

(** Types without links; inferred variants are not part of a type. *)
Inductive term :=
  | TVar (id : N)
  | TGeneric (id : N)
  | TNamed (module name : text) (arguments : list term)
  | TFn (arguments : list term) (return_ : term)
  | TTuple (elements : list term).
Inductive resolves (st : store) : type -> term -> Prop :=
  | resolves_unbound c id : nth_error st c = Some (Unbound id) -> resolves st (Var c) (TVar id)
  | resolves_generic c id : nth_error st c = Some (Generic id) -> resolves st (Var c) (TGeneric id)
  | resolves_link c t u : nth_error st c = Some (Link t) -> resolves st t u -> resolves st (Var c) u
  | resolves_named d m n l v us : Forall2 (resolves st) l us -> resolves st (Named d m n l v) (TNamed m n us)
  | resolves_fn l r us u : Forall2 (resolves st) l us -> resolves st r u -> resolves st (Fn l r) (TFn us u)
  | resolves_tuple l us : Forall2 (resolves st) l us -> resolves st (Tuple l) (TTuple us).

(** Every variable has a finite type, that is there are no cycles, and unbound variables differ by
    their numbers. *)
Definition finite (st : store) : Prop := forall c, c < length st -> exists u, resolves st (Var c) u.
Definition distinct (st : store) : Prop :=
  forall c c' id, nth_error st c = Some (Unbound id) -> nth_error st c' = Some (Unbound id) -> c = c'.

(** Assignments of unbound variables; generic variables are constants. *)
Definition assignment := N -> term.
Fixpoint apply (a : assignment) (u : term) : term :=
  match u with
  | TVar id => a id
  | TGeneric id => TGeneric id
  | TNamed m n l => TNamed m n (map (apply a) l)
  | TFn l r => TFn (map (apply a) l) (apply a r)
  | TTuple l => TTuple (map (apply a) l)
  end.
Definition unifies (a : assignment) (u v : term) : Prop := apply a u = apply a v.

(** The links of a type followed, but not inside. *)
Inductive shown (st : store) : type -> type -> Prop :=
  | shown_link c t u : nth_error st c = Some (Link t) -> shown st t u -> shown st (Var c) u
  | shown_var c v : nth_error st c = Some v -> match v with Link _ => False | _ => True end -> shown st (Var c) (Var c)
  | shown_other t : is_var t = false -> shown st t t.

(** What is known of every type of the first store, in the second: its unbound variables have been
    assigned, and nothing else has changed. *)
Definition solved (st st' : store) (a : assignment) : Prop :=
  forall t u, resolves st t u -> resolves st' t (apply a u).
(** One assignment is an instance of another. *)
Definition instance_of (a b : assignment) : Prop := exists c : assignment, forall id, b id = apply c (a id).
