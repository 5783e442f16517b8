(** What instantiation and generalisation should do. *)
From Coq Require Import NArith Arith Bool List.
From Verif Require Import Text Unify UnifySpec Instantiate.
Import ListNotations.

(** The generic variables of a type from left to right, and those of them that get a new variable:
    each once, unless it has a type already or is rigid. *)
Fixpoint generics (u : term) : list N :=
  match u with
  | TVar _ => []
  | TGeneric i => [i]
  | TNamed _ _ l => flat_map generics l
  | TFn l r => flat_map generics l ++ generics r
  | TTuple l => flat_map generics l
  end.
Fixpoint newcomers (rigid : N -> bool) (known : list N) (l : list N) : list N :=
  match l with
  | [] => []
  | i :: l =>
      if rigid i || existsb (N.eqb i) known then newcomers rigid known l
      else i :: newcomers rigid (i :: known) l
  end.
(** A new variable for one generic variable. *)
Definition give (s : state) (i : N) : state :=
  let (e, m) := s in
  let v := Var (length (variables e)) in
  (Env (variables e ++ [Unbound (ids e)]) (ids e + 1)%N (deferred_type_variable_aliases e ++ [(i, v)]), (i, v) :: m).

(** A type copied: links are followed, generic variables are replaced, everything else stays. *)
Section Copy.
Context (st : store) (m : N -> option type).
Inductive copy : type -> type -> Prop :=
  | copy_link c t t' : nth_error st c = Some (Link t) -> copy t t' -> copy (Var c) t'
  | copy_unbound c i : nth_error st c = Some (Unbound i) -> copy (Var c) (Var c)
  | copy_replaced c i t : nth_error st c = Some (Generic i) -> m i = Some t -> copy (Var c) t
  | copy_kept c i : nth_error st c = Some (Generic i) -> m i = None -> copy (Var c) (Var c)
  | copy_named d x n l l' v : Forall2 copy l l' -> copy (Named d x n l v) (Named d x n l' v)
  | copy_fn l l' r r' : Forall2 copy l l' -> copy r r' -> copy (Fn l r) (Fn l' r')
  | copy_tuple l l' : Forall2 copy l l' -> copy (Tuple l) (Tuple l').
End Copy.

(** Generic variables replaced by unbound variables, and the other way round. *)
Fixpoint instance (f : N -> option N) (u : term) : term :=
  match u with
  | TVar i => TVar i
  | TGeneric i => match f i with Some j => TVar j | None => TGeneric i end
  | TNamed m n l => TNamed m n (map (instance f) l)
  | TFn l r => TFn (map (instance f) l) (instance f r)
  | TTuple l => TTuple (map (instance f) l)
  end.
Fixpoint closed (u : term) : term :=
  match u with
  | TVar i => TGeneric i
  | TGeneric i => TGeneric i
  | TNamed m n l => TNamed m n (map closed l)
  | TFn l r => TFn (map closed l) (closed r)
  | TTuple l => TTuple (map closed l)
  end.
Fixpoint unbounds (u : term) : list N :=
  match u with
  | TVar i => [i]
  | TGeneric _ => []
  | TNamed _ _ l => flat_map unbounds l
  | TFn l r => flat_map unbounds l ++ unbounds r
  | TTuple l => flat_map unbounds l
  end.
(** A type generalised: links are followed, unbound variables become generic, and what is known
    about variants is forgotten. *)
Inductive closes (st st' : store) : type -> type -> Prop :=
  | closes_link c t t' : nth_error st c = Some (Link t) -> closes st st' t t' -> closes st st' (Var c) t'
  | closes_unbound c i c' : nth_error st c = Some (Unbound i) -> nth_error st' c' = Some (Generic i) -> closes st st' (Var c) (Var c')
  | closes_generic c i : nth_error st c = Some (Generic i) -> nth_error st' c = Some (Generic i) -> closes st st' (Var c) (Var c)
  | closes_named d x n l l' v : Forall2 (closes st st') l l' -> closes st st' (Named d x n l v) (Named d x n l' None)
  | closes_fn l l' r r' : Forall2 (closes st st') l l' -> closes st st' r r' -> closes st st' (Fn l r) (Fn l' r')
  | closes_tuple l l' : Forall2 (closes st st') l l' -> closes st st' (Tuple l) (Tuple l').

(** Numbers that have been given out are less than the next one. *)
Definition counted (e : env) : Prop := forall c i, nth_error (variables e) c = Some (Unbound i) -> (i < ids e)%N.
(** An environment as inference keeps it. *)
Definition well (e : env) : Prop := finite (variables e) /\ distinct (variables e) /\ counted e.
