(** Instantiation and generalisation of types: compiler-core/src/type_/environment.rs, type_.rs,
    type_/prelude.rs, uid.rs. *)
From Coq Require Import NArith Arith Bool List.
From Verif Require Import Text Unify.
Import ListNotations.

(** The parts of [Environment] (type_/environment.rs 20-115) used here: the type variables, the
    next number of the [UniqueIdGenerator] and the names to be found later. *)
Record env := Env {
  variables : store;
  ids : N;
  deferred_type_variable_aliases : list (N * type) }.

(** [unbound_var] and [generic_var], type_/prelude.rs 202-212: a new variable. *)
Definition allocate (v : type_var) (e : env) : type * env :=
  (Var (length (variables e)), Env (variables e ++ [v]) (ids e) (deferred_type_variable_aliases e)).
(** [next_uid], type_/environment.rs 275-279, uid.rs 19-21; u64 does not overflow. *)
Definition next_uid (e : env) : N * env :=
  (ids e, Env (variables e) (ids e + 1)%N (deferred_type_variable_aliases e)).
(** [new_unbound_var], type_/environment.rs 320-322. *)
Definition new_unbound_var (e : env) : type * env :=
  let (id, e) := next_uid e in allocate (Unbound id) e.

Section Each.
Context {S : Type} (f : S -> type -> answer (type * S)).
(** [arguments.iter().map(..).collect()] with a mutable state. *)
Fixpoint collect (s : S) (l : list type) : answer (list type * S) :=
  match l with
  | [] => Answer ([], s)
  | a :: l =>
      match f s a with
      | Answer (a, s) =>
          match collect s l with
          | Answer (l, s) => Answer (a :: l, s)
          | Panics => Panics
          | NoFuel => NoFuel
          end
      | Panics => Panics
      | NoFuel => NoFuel
      end
  end.
End Each.

(** A map from the numbers of generic variables to types. *)
Fixpoint lookup (id : N) (m : list (N * type)) : option type :=
  match m with
  | [] => None
  | (i, t) :: m => if N.eqb i id then Some t else lookup id m
  end.

(** [instantiate], type_/environment.rs 663-743, with [Hydrator::is_rigid], type_/hydrator.rs
    92-94. *)
Notation state := (env * list (N * type))%type.
Fixpoint instantiate (fuel : nat) (is_rigid : N -> bool) (s : state) (t : type) : answer (type * state) :=
  match fuel with
  | O => NoFuel
  | S fuel =>
      match t with
      | Named d m n l v =>
          match collect (instantiate fuel is_rigid) s l with
          | Answer (l, s) => Answer (Named d m n l v, s)
          | Panics => Panics
          | NoFuel => NoFuel
          end
      | Var c =>
          match nth_error (variables (fst s)) c with
          | Some (Link t) => instantiate fuel is_rigid s t
          | Some (Unbound _) => Answer (Var c, s)
          | Some (Generic id) =>
              match lookup id (snd s) with
              | Some t => Answer (t, s)
              | None =>
                  if is_rigid id then Answer (Var c, s)
                  else
                    let (e, ids) := s in
                    let (v, e) := new_unbound_var e in
                    let ids := (id, v) :: ids in
                    let e := Env (variables e) (Instantiate.ids e) (deferred_type_variable_aliases e ++ [(id, v)]) in
                    Answer (v, (e, ids))
              end
          | None => Panics
          end
      | Fn l r =>
          match collect (instantiate fuel is_rigid) s l with
          | Answer (l, s) =>
              match instantiate fuel is_rigid s r with
              | Answer (r, s) => Answer (Fn l r, s)
              | Panics => Panics
              | NoFuel => NoFuel
              end
          | Panics => Panics
          | NoFuel => NoFuel
          end
      | Tuple l =>
          match collect (instantiate fuel is_rigid) s l with
          | Answer (l, s) => Answer (Tuple l, s)
          | Panics => Panics
          | NoFuel => NoFuel
          end
      end
  end.

(** [generalise], type_.rs 1732-1780. *)
Fixpoint generalise (fuel : nat) (e : env) (t : type) : answer (type * env) :=
  match fuel with
  | O => NoFuel
  | S fuel =>
      match t with
      | Var c =>
          match nth_error (variables e) c with
          | Some (Unbound id) => Answer (allocate (Generic id) e)
          | Some (Link t) => generalise fuel e t
          | Some (Generic _) => Answer (Var c, e)
          | None => Panics
          end
      | Named d m n l _ =>
          match collect (generalise fuel) e l with
          | Answer (l, e) => Answer (Named d m n l None, e)
          | Panics => Panics
          | NoFuel => NoFuel
          end
      | Fn l r =>
          match collect (generalise fuel) e l with
          | Answer (l, e) =>
              match generalise fuel e r with
              | Answer (r, e) => Answer (Fn l r, e)
              | Panics => Panics
              | NoFuel => NoFuel
              end
          | Panics => Panics
          | NoFuel => NoFuel
          end
      | Tuple l =>
          match collect (generalise fuel) e l with
          | Answer (l, e) => Answer (Tuple l, e)
          | Panics => Panics
          | NoFuel => NoFuel
          end
      end
  end.

(** [match_fun_type], type_.rs 1688-1730.  The variable that is changed is unbound, so it is none
    of the links that are borrowed while they are followed. *)
Inductive match_fun_type_error :=
  | IncorrectArity (expected given : nat) (arguments : list type) (return_type : type)
  | NotFn (t : type).
Inductive matched :=
  | Matches (arguments : list type) (return_ : type) (e : env)
  | Fails (error : match_fun_type_error) (e : env)
  | MatchPanics
  | MatchOutOfFuel.
Fixpoint new_unbound_vars (n : nat) (e : env) : list type * env :=
  match n with
  | O => ([], e)
  | S n =>
      let (v, e) := new_unbound_var e in
      let (vs, e) := new_unbound_vars n e in
      (v :: vs, e)
  end.
Definition match_fn (t : type) (arity : nat) (e : env) : matched :=
  match t with
  | Fn l r =>
      if Nat.eqb (length l) arity then Matches l r e
      else Fails (IncorrectArity (length l) arity l r) e
  | _ => Fails (NotFn t) e
  end.
Fixpoint match_fun_type (fuel : nat) (t : type) (arity : nat) (e : env) : matched :=
  match fuel with
  | O => MatchOutOfFuel
  | S fuel =>
      match t with
      | Var c =>
          match nth_error (variables e) c with
          | Some (Link t) => match_fun_type fuel t arity e
          | Some (Unbound _) =>
              let (arguments, e) := new_unbound_vars arity e in
              let (return_, e) := new_unbound_var e in
              Matches arguments return_
                (Env (set (variables e) c (Link (Fn arguments return_))) (ids e) (deferred_type_variable_aliases e))
          | Some (Generic _) => match_fn t arity e
          | None => MatchPanics
          end
      | _ => match_fn t arity e
      end
  end.
