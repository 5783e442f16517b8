(** Which Erlang types the types of Gleam are. *)
From Coq Require Import String NArith List Bool.
From Verif Require Import Text Strings ErlangSourceSpec ErlangTypes.
Import ListNotations.
Local Open Scope nat_scope.
Local Open Scope list_scope.

(** ** Types *)

(** The predefined types of Erlang. *)
Definition predefined : list text := map str
  ["any"; "none"; "nil"; "term"; "dynamic"; "no_return"; "identifier"; "timeout";
   "pid"; "port"; "reference"; "node"; "module"; "mfa"; "arity"; "function";
   "atom"; "boolean"; "tuple"; "map"; "record";
   "number"; "float"; "integer"; "pos_integer"; "neg_integer"; "non_neg_integer"; "byte"; "char";
   "binary"; "nonempty_binary"; "bitstring"; "nonempty_bitstring"; "iodata"; "iolist";
   "list"; "nonempty_list"; "string"; "nonempty_string";
   "maybe_improper_list"; "nonempty_improper_list"; "nonempty_maybe_improper_list"]%string.
(** Those the compiler does not know. *)
Definition forgotten : list text := map str
  ["nonempty_binary"; "nonempty_bitstring"; "nonempty_maybe_improper_list"]%string.
Definition is_in (l : list text) (s : text) : bool := existsb (text_eqb s) l.

(** A type has its name in snake case, with an underscore if the name is taken. *)
Definition erlang_name (name : text) : text :=
  let s := to_snake_case name in
  if is_in predefined s && negb (is_in forgotten s) then s ++ [95%N] else s.

Definition simple_types : list (text * tree) :=
  map (fun '(a, b) => (str a, b))
    [("Int", YNamed (str "integer") []); ("Float", YNamed (str "float") []);
     ("String", YNamed (str "binary") []); ("Bool", YNamed (str "boolean") []);
     ("Nil", YAtom (str "nil")); ("BitArray", YNamed (str "bitstring") []);
     ("UtfCodepoint", YNamed (str "integer") [])]%string.
Definition simple_type (name : text) : option tree :=
  option_map snd (find (fun p => text_eqb (fst p) name) simple_types).

Definition any_type : tree := YNamed (str "any") [].
Definition prelude_meaning (name : text) (l : list tree) : tree :=
  match simple_type name, l with
  | Some t, _ => t
  | None, [t] => YNamed (str "list") [t]
  | None, [a; b] => YUnion [YTuple [YAtom (str "ok"); a]; YTuple [YAtom (str "error"); b]]
  | _, _ => any_type
  end.

Fixpoint erlang_type (variable : N -> tree) (here : text) (t : gtype) : tree :=
  match t with
  | GVar x => variable x
  | GLink t => erlang_type variable here t
  | GNamed m n l =>
      let l := map (erlang_type variable here) l in
      if text_eqb m (str "gleam") then prelude_meaning n l
      else if text_eqb m here then YNamed (erlang_name n) l
      else YRemote (erlang_module_name m) (erlang_name n) l
  | GFn l r => YFun (map (erlang_type variable here) l) (erlang_type variable here r)
  | GTuple l => YTuple (map (erlang_type variable here) l)
  end.

(** The types of the prelude have their arguments. *)
Fixpoint proper (t : gtype) : Prop :=
  match t with
  | GVar _ => True
  | GLink t => proper t
  | GNamed m n l =>
      each proper l /\
      (text_eqb m (str "gleam") = true ->
       (simple_type n <> None /\ l = []) \/ (n = str "List" /\ length l = 1) \/
       (n = str "Result" /\ length l = 2))
  | GFn l r => each proper l /\ proper r
  | GTuple l => each proper l
  end.
(** The names of types are those of Gleam, those of modules have no quotes. *)
Fixpoint legal (t : gtype) : Prop :=
  match t with
  | GVar _ => True
  | GLink t => legal t
  | GNamed m n l => valid_upname n = true /\ atom_name m = true /\ each legal l
  | GFn l r => each legal l /\ legal r
  | GTuple l => each legal l
  end.

(** ** Variables *)

(** How often a variable is used: in the alternatives of a union, as often as in the alternative
    that uses it most. *)
Fixpoint uses (x : N) (t : gtype) : nat :=
  match t with
  | GVar y => if (x =? y)%N then 1 else 0
  | GLink t => uses x t
  | GNamed m n l =>
      (if text_eqb m (str "gleam") && text_eqb n (str "Result") then list_max else list_sum)
        (map (uses x) l)
  | GFn l r => list_sum (map (uses x) l) + uses x r
  | GTuple l => list_sum (map (uses x) l)
  end.
Fixpoint type_uses (x : text) (t : tree) : nat :=
  match t with
  | YVar y => if text_eqb x y then 1 else 0
  | YAtom _ => 0
  | YNamed _ l | YRemote _ _ l | YTuple l => list_sum (map (type_uses x) l)
  | YFun l r => list_sum (map (type_uses x) l) + type_uses x r
  | YUnion l => list_max (map (type_uses x) l)
  end.

(** In a specification a variable that is used once is [any()]. *)
Definition total_uses (x : N) (l : list gtype) : nat := list_sum (map (uses x) l).
Definition spec_variable (l : list gtype) (x : N) : tree :=
  if Nat.eqb (total_uses x l) 1 then any_type else YVar (id_to_type_var_str x).

(** ** Definitions *)

(** The variable a parameter is. *)
Fixpoint parameter (t : gtype) : option N :=
  match t with GVar x => Some x | GLink t => parameter t | _ => None end.

Definition constructor_meaning (here : text) (c : text * list gtype) : tree :=
  match snd c with
  | [] => YAtom (to_snake_case (fst c))
  | l => YTuple (YAtom (to_snake_case (fst c)) ::
           map (erlang_type (fun x => YVar (id_to_type_var_str x)) here) l)
  end.
Definition one_or_union (l : list tree) : tree := match l with [t] => t | l => YUnion l end.
Definition unused_type (unused : list text) : list tree :=
  match unused with [] => [] | _ => [YTuple (YAtom (str "gleam_phantom") :: map YVar unused)] end.
(** A type that has no constructors is an external one or can be anything. *)
Definition definition_meaning (here : text) (c : custom_type) (unused : list text) : tree :=
  match ct_constructors c, ct_external c with
  | [], Some (m, t) => YRemote (erlang_module_name m) t (map YVar unused)
  | [], None => one_or_union (any_type :: unused_type unused)
  | l, _ => one_or_union (map (constructor_meaning here) l ++ unused_type unused)
  end.

(** A parameter no constructor uses. *)
Definition phantom (c : custom_type) (x : N) : Prop :=
  (exists t, In t (ct_parameters c) /\ parameter t = Some x) /\
  forall n l t, In (n, l) (ct_constructors c) -> In t l -> uses x t = 0.

(** The parameters are different variables, and the only ones of the constructors. *)
Definition proper_definition (c : custom_type) (ps : list N) : Prop :=
  map parameter (ct_parameters c) = map Some ps /\ NoDup ps /\
  forall n l t, In (n, l) (ct_constructors c) -> In t l ->
    proper t /\ forall x, uses x t <> 0 -> In x ps.
Definition legal_definition (c : custom_type) : Prop :=
  valid_upname (ct_name c) = true /\
  (forall n l, In (n, l) (ct_constructors c) -> valid_upname n = true /\ each legal l) /\
  match ct_external c with
  | Some (m, t) => atom_name m = true /\ atom_name t = true
  | None => True
  end.

(** The definition of a type. *)
Definition type_meaning_of (here : text) (ps : list N) (unused : list text) (c : custom_type) : top :=
  TypeDefinition_ (ct_opaque c) (erlang_name (ct_name c)) (map id_to_type_var_str ps)
    (definition_meaning here c unused).
