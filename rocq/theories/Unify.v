(** Unification: compiler-core/src/type_/environment.rs, type_.rs, type_/error.rs.

    A [RefCell<TypeVar>] is a number into the store of all type variables.  The borrows that are
    alive during a recursive call are passed along, so that a [borrow_mut] that panics is a result
    of the model. *)
From Coq Require Import NArith Arith Bool List.
From Verif Require Import Text.
Import ListNotations.

(** [Type], type_.rs 55-117.  [details] are the publicity and the package, which only equality
    looks at. *)
Notation cell := nat.
Inductive type :=
  | Named (details : N) (module name : text) (arguments : list type) (inferred_variant : option N)
  | Fn (arguments : list type) (return_ : type)
  | Tuple (elements : list type)
  | Var (type_ : cell).
(** [TypeVar], type_.rs 1266-1290. *)
Inductive type_var := Unbound (id : N) | Link (type_ : type) | Generic (id : N).
Notation store := (list type_var).
Fixpoint set (st : store) (c : cell) (v : type_var) : store :=
  match st, c with
  | [], _ => []
  | _ :: st, O => v :: st
  | w :: st, S c => w :: set st c v
  end.
Definition mem (c : cell) (cs : list cell) : bool := existsb (Nat.eqb c) cs.

(** [UnifyError], type_/error.rs; [UnifyErrorSituation] 1837-1862 and [FunctionsMismatchReason]
    1865-1879: the situations that [unify] makes. *)
Inductive situation :=
  | Arity (expected given : nat)
  | Argument (expected given : type) (position : nat)
  | Results (expected given : type).
Inductive unify_error :=
  | RecursiveType
  | CouldNotUnify (expected given : type) (situation : option situation).
(** The store after a failure is as far as unification came. *)
Inductive outcome :=
  | Ok (st : store)
  | Err (e : unify_error) (st : store)
  | Panic
  | OutOfFuel.
Inductive answer (A : Type) := Answer (a : A) | Panics | NoFuel.
Arguments Answer {A}. Arguments Panics {A}. Arguments NoFuel {A}.

(** The derived [PartialEq] of [Type] and [TypeVar], type_.rs 55 and 1265: links are not followed
    unless both sides are links. *)
Definition option_eqb (a b : option N) : bool :=
  match a, b with
  | Some a, Some b => N.eqb a b
  | None, None => true
  | _, _ => false
  end.
Fixpoint all_same (f : type -> type -> answer bool) (l l' : list type) : answer bool :=
  match l, l' with
  | [], [] => Answer true
  | a :: l, a' :: l' =>
      match f a a' with
      | Answer true => all_same f l l'
      | r => r
      end
  | _, _ => Answer false
  end.
Fixpoint same (fuel : nat) (st : store) (t1 t2 : type) : answer bool :=
  match fuel with
  | O => NoFuel
  | S fuel =>
      match t1, t2 with
      | Named d m n l v, Named d' m' n' l' v' =>
          if N.eqb d d' && text_eqb m m' && text_eqb n n' && option_eqb v v' then all_same (same fuel st) l l' else Answer false
      | Fn l r, Fn l' r' =>
          match all_same (same fuel st) l l' with
          | Answer true => same fuel st r r'
          | r => r
          end
      | Tuple l, Tuple l' => all_same (same fuel st) l l'
      | Var c, Var c' =>
          match nth_error st c, nth_error st c' with
          | Some (Unbound i), Some (Unbound j) => Answer (N.eqb i j)
          | Some (Link t), Some (Link t') => same fuel st t t'
          | Some (Generic i), Some (Generic j) => Answer (N.eqb i j)
          | Some _, Some _ => Answer false
          | _, _ => Panics
          end
      | _, _ => Answer false
      end
  end.

(** [unify_unbound_type], type_.rs 1645-1685: whether the variable occurs in the type. *)
Fixpoint any (f : type -> answer bool) (l : list type) : answer bool :=
  match l with
  | [] => Answer false
  | a :: l =>
      match f a with
      | Answer false => any f l
      | r => r
      end
  end.
Fixpoint unify_unbound_type (fuel : nat) (st : store) (t : type) (own_id : N) : answer bool :=
  match fuel with
  | O => NoFuel
  | S fuel =>
      match t with
      | Var c =>
          match nth_error st c with
          | Some (Link t) => unify_unbound_type fuel st t own_id
          | Some (Unbound id) => Answer (N.eqb id own_id)
          | Some (Generic _) => Answer false
          | None => Panics
          end
      | Named _ _ _ l _ => any (fun a => unify_unbound_type fuel st a own_id) l
      | Fn l r =>
          match any (fun a => unify_unbound_type fuel st a own_id) l with
          | Answer false => unify_unbound_type fuel st r own_id
          | r => r
          end
      | Tuple l => any (fun a => unify_unbound_type fuel st a own_id) l
      end
  end.

(** [collapse_links], type_.rs 676-683, while [taken] is mutably borrowed. *)
Fixpoint collapse_links (fuel : nat) (taken : cell) (st : store) (t : type) : answer type :=
  match fuel with
  | O => NoFuel
  | S fuel =>
      match t with
      | Var c =>
          if Nat.eqb c taken then Panics
          else
            match nth_error st c with
            | Some (Link t) => collapse_links fuel taken st t
            | Some _ => Answer (Var c)
            | None => Panics
            end
      | _ => Answer t
      end
  end.

(** [generalise_custom_type_variant] of types and of type variables, type_.rs 384-402 and
    1463-1468: the arguments of a named type are left alone, linked types are changed in place. *)
Fixpoint each (f : store -> type -> answer (type * store)) (st : store) (l : list type) : answer (list type * store) :=
  match l with
  | [] => Answer ([], st)
  | a :: l =>
      match f st a with
      | Answer (a, st) =>
          match each f st l with
          | Answer (l, st) => Answer (a :: l, st)
          | Panics => Panics
          | NoFuel => NoFuel
          end
      | Panics => Panics
      | NoFuel => NoFuel
      end
  end.
Fixpoint generalise_variant (fuel : nat) (borrowed : list cell) (st : store) (t : type) : answer (type * store) :=
  match fuel with
  | O => NoFuel
  | S fuel =>
      match t with
      | Named d m n l _ => Answer (Named d m n l None, st)
      | Var c =>
          if mem c borrowed then Panics
          else
            match nth_error st c with
            | Some (Link t) =>
                match generalise_variant fuel (c :: borrowed) st t with
                | Answer (t, st) => Answer (Var c, set st c (Link t))
                | Panics => Panics
                | NoFuel => NoFuel
                end
            | Some _ => Answer (Var c, st)
            | None => Panics
            end
      | Tuple l =>
          match each (generalise_variant fuel borrowed) st l with
          | Answer (l, st) => Answer (Tuple l, st)
          | Panics => Panics
          | NoFuel => NoFuel
          end
      | Fn l r =>
          match each (generalise_variant fuel borrowed) st l with
          | Answer (l, st) =>
              match generalise_variant fuel borrowed st r with
              | Answer (r, st) => Answer (Fn l r, st)
              | Panics => Panics
              | NoFuel => NoFuel
              end
          | Panics => Panics
          | NoFuel => NoFuel
          end
      end
  end.

(** [flip_unify_error] and [unify_enclosed_type], type_/error.rs 1699-1755. *)
Definition flip_unify_error (e : unify_error) : unify_error :=
  match e with
  | CouldNotUnify expected given s => CouldNotUnify given expected s
  | RecursiveType => RecursiveType
  end.
Definition map_err (f : unify_error -> unify_error) (o : outcome) : outcome :=
  match o with Err e st => Err (f e) st | o => o end.
Definition unify_enclosed_type (e1 e2 : type) : outcome -> outcome :=
  map_err (fun e => match e with CouldNotUnify _ _ s => CouldNotUnify e1 e2 s | e => e end).

(** [unify], type_/environment.rs 1042-1193. *)
Definition is_var (t : type) : bool := match t with Var _ => true | _ => false end.
Definition the_link (st : store) (t : type) : option (cell * type) :=
  match t with
  | Var c => match nth_error st c with Some (Link t) => Some (c, t) | _ => None end
  | _ => None
  end.
(** The loops over the arguments; [zip] stops with the shorter list. *)
Fixpoint each_pair (f : nat -> store -> type -> type -> outcome) (i : nat) (st : store) (l l' : list type) : outcome :=
  match l, l' with
  | a :: l, a' :: l' =>
      match f i st a a' with
      | Ok st => each_pair f (S i) st l l'
      | o => o
      end
  | _, _ => Ok st
  end.
Fixpoint unify (fuel : nat) (borrowed : list cell) (st : store) (t1 t2 : type) : outcome :=
  match fuel with
  | O => OutOfFuel
  | S fuel =>
      match same fuel st t1 t2 with
      | NoFuel => OutOfFuel
      | Panics => Panic
      | Answer true => Ok st
      | Answer false =>
          match the_link st t2 with
          | Some (c, t) => unify fuel (c :: borrowed) st t1 t
          | None =>
              match t1 with
              | Var c =>
                  match nth_error st c with
                  | None => Panic
                  | Some (Link t) =>
                      match unify fuel borrowed st t t2 with
                      | Ok st =>
                          if mem c borrowed then Ok st
                          else
                            match collapse_links fuel c st t with
                            | Answer t => Ok (set st c (Link t))
                            | Panics => Panic
                            | NoFuel => OutOfFuel
                            end
                      | o => o
                      end
                  | Some (Unbound id) =>
                      match unify_unbound_type fuel st t2 id with
                      | Answer true => Err RecursiveType st
                      | Answer false =>
                          match generalise_variant fuel borrowed st t2 with
                          | Answer (t2, st) => if mem c borrowed then Panic else Ok (set st c (Link t2))
                          | Panics => Panic
                          | NoFuel => OutOfFuel
                          end
                      | Panics => Panic
                      | NoFuel => OutOfFuel
                      end
                  | Some (Generic id) =>
                      match t2 with
                      | Var c2 =>
                          match nth_error st c2 with
                          | Some (Unbound _) => if mem c2 borrowed then Panic else Ok (set st c2 (Generic id))
                          | Some _ => Err (CouldNotUnify t1 t2 None) st
                          | None => Panic
                          end
                      | _ => Err (CouldNotUnify t1 t2 None) st
                      end
                  end
              | _ =>
                  if is_var t2 then map_err flip_unify_error (unify fuel borrowed st t2 t1)
                  else
                    match t1, t2 with
                    | Named _ m n l _, Named _ m' n' l' _ =>
                        if text_eqb m m' && text_eqb n n' && Nat.eqb (length l) (length l')
                        then each_pair (fun _ st a a' => unify_enclosed_type t1 t2 (unify fuel borrowed st a a')) 0 st l l'
                        else Err (CouldNotUnify t1 t2 None) st
                    | Tuple l, Tuple l' =>
                        if Nat.eqb (length l) (length l')
                        then each_pair (fun _ st a a' => unify_enclosed_type t1 t2 (unify fuel borrowed st a a')) 0 st l l'
                        else Err (CouldNotUnify t1 t2 None) st
                    | Fn l r, Fn l' r' =>
                        if Nat.eqb (length l) (length l') then
                          match each_pair (fun i st a a' => map_err (fun _ => CouldNotUnify t1 t2 (Some (Argument a a' i)))
                                                         (unify fuel borrowed st a a')) 0 st l l' with
                          | Ok st => map_err (fun _ => CouldNotUnify t1 t2 (Some (Results r r'))) (unify fuel borrowed st r r')
                          | o => o
                          end
                        else Err (CouldNotUnify t1 t2 (Some (Arity (length l) (length l')))) st
                    | _, _ => Err (CouldNotUnify t1 t2 None) st
                    end
              end
          end
      end
  end.
