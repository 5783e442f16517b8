(** How the suggested patterns are read: patterns written as text, independent of the
    decision trees and of the printer. *)
From Coq Require Import String ZArith NArith Bool List.
From Verif Require Import Text Strings Bits Case CaseSpec MissingPatterns.
Import ListNotations.
Local Open Scope nat_scope.
Local Open Scope list_scope.

(** The part of a module's name after the last slash. *)
Definition short_module (m short : text) : Prop :=
  ~ In 47%N short /\ (m = short \/ exists before, m = before ++ [47%N] ++ short).
(** How a constructor is called here: by the name it has in this module, by the name of its
    module here, or else by its module's own short name. *)
Inductive constructor_name (ns : names) (m n : text) : text -> Prop :=
  | name_local alias : In ((m, n), alias) (local_value_constructors ns) -> constructor_name ns m n alias
  | name_imported alias : (forall a, ~ In ((m, n), a) (local_value_constructors ns)) ->
      In (m, alias) (imported_modules ns) -> constructor_name ns m n (alias ++ str "." ++ n)
  | name_elsewhere short : (forall a, ~ In ((m, n), a) (local_value_constructors ns)) ->
      (forall a, ~ In (m, a) (imported_modules ns)) -> short_module m short ->
      constructor_name ns m n (short ++ str "." ++ n).

(** Texts with commas between them. *)
Fixpoint commas (xs : list text) : text :=
  match xs with
  | [] => []
  | [x] => x
  | x :: xs => x ++ str ", " ++ commas xs
  end.
(** The arguments of a constructor: none, or in parentheses. *)
Definition arguments_text (xs : list text) : text :=
  match xs with [] => [] | _ => str "(" ++ commas xs ++ str ")" end.

Section Writing.
  Context (env : environment) (ns : names) (is_internal : text -> text -> bool).

  (** A type whose constructors may be shown in this module. *)
  Definition visible (m n : text) : Prop := is_internal m n = false \/ m = current_module env.

  (** [written t p x]: [x] is a way to write the pattern [p] for values of the type [t]. *)
  Inductive written : ctype -> source -> text -> Prop :=
    | written_discard t : written t TPDiscard (str "_")
    | written_tuple ts ps xs : written_all ts ps xs ->
        written (CTuple ts) (TPTuple ps) (str "#(" ++ commas xs ++ str ")")
    | written_list t ps xs : written_elements t ps xs ->
        written (CList t) (TPList ps None) (str "[" ++ commas xs ++ str "]")
    | written_list_tail t ps xs : xs <> [] -> written_elements t ps xs ->
        written (CList t) (TPList ps (Some TPDiscard)) (str "[" ++ commas xs ++ str ", ..]")
    | written_constructor m n args inferred tv i k name ps xs :
        get_constructors_for_type env m n = Some tv ->
        tv_opaque tv = false \/ m = current_module env ->
        nth_error (tv_variants tv) i = Some k ->
        (forall j, inferred = Some j -> i = j) ->
        visible m n ->
        constructor_name ns m (c_name k) name ->
        written_fields (map fst (c_parameters k)) (field_types (tv_parameters tv) args k) ps xs ->
        written (CNamed m n args inferred) (TPConstructor i name (c_name k) None ps) (name ++ arguments_text xs)
  with written_all : list ctype -> list source -> list text -> Prop :=
    | written_none : written_all [] [] []
    | written_more t ts p ps x xs : written t p x -> written_all ts ps xs ->
        written_all (t :: ts) (p :: ps) (x :: xs)
  with written_elements : ctype -> list source -> list text -> Prop :=
    | elements_none t : written_elements t [] []
    | elements_more t p ps x xs : written t p x -> written_elements t ps xs ->
        written_elements t (p :: ps) (x :: xs)
  with written_fields : list (option text) -> list ctype -> list source -> list text -> Prop :=
    | fields_none : written_fields [] [] [] []
    | fields_plain ls t ts p ps x xs : written t p x -> written_fields ls ts ps xs ->
        written_fields (None :: ls) (t :: ts) (p :: ps) (x :: xs)
    | fields_labelled l ls t ts p ps x xs : written t p x -> written_fields ls ts ps xs ->
        written_fields (Some l :: ls) (t :: ts) (p :: ps) ((l ++ str ": " ++ x) :: xs)
    | fields_shorthand l ls t ts ps xs : written_fields ls ts ps xs ->
        written_fields (Some l :: ls) (t :: ts) (TPVariable l :: ps) ((l ++ str ":") :: xs).

  (** The patterns of a clause, one for each subject. *)
  Definition written_row (subjects : list ctype) (ps : list source) (x : text) : Prop :=
    exists xs, written_all subjects ps xs /\ x = commas xs.
End Writing.

(** ** Types with values *)

(** The types of the parts of a value. *)
Inductive component (env : environment) : ctype -> ctype -> Prop :=
  | component_whole t : component env t t
  | component_element t u : component env t u -> component env (CList t) u
  | component_tuple ts t u : In t ts -> component env t u -> component env (CTuple ts) u
  | component_field m n args inferred tv k t u :
      get_constructors_for_type env m n = Some tv -> In k (tv_variants tv) ->
      In t (field_types (tv_parameters tv) args k) -> component env t u ->
      component env (CNamed m n args inferred) u.
(** There are values of each of them. *)
Definition furnished (env : environment) (t : ctype) : Prop :=
  forall u, component env t u -> exists v, has_type env v u.

(** ** Kinds of patterns *)

(** Patterns without string prefixes and bit arrays; without literals when [literals] is
    false. *)
Inductive made_of (literals : bool) : source -> Prop :=
  | made_discard : made_of literals TPDiscard
  | made_variable n : made_of literals (TPVariable n)
  | made_assign n p : made_of literals p -> made_of literals (TPAssign n p)
  | made_int z : literals = true -> made_of literals (TPInt z)
  | made_float f : literals = true -> made_of literals (TPFloat f)
  | made_string s : literals = true -> made_of literals (TPString s)
  | made_tuple ps : Forall (made_of literals) ps -> made_of literals (TPTuple ps)
  | made_list ps : Forall (made_of literals) ps -> made_of literals (TPList ps None)
  | made_list_tail ps p : Forall (made_of literals) ps -> made_of literals p -> made_of literals (TPList ps (Some p))
  | made_constructor i used name module ps : Forall (made_of literals) ps ->
      made_of literals (TPConstructor i used name module ps).
Definition clauses_made_of (literals : bool) (cls : list clause) : Prop :=
  forall r, In r (rows cls) -> Forall (made_of literals) (row_patterns r).

(** No clause matches for sure: a guard may fail. *)
Definition unmatched (outside : text -> Z) (float_is : text -> endianness -> list bool -> bool)
    (finite : endianness -> list bool -> bool) (cls : list clause) (values : list val) : Prop :=
  forall r bs, In r (rows cls) -> row_guard r = None -> ~ patterns_match outside float_is finite (row_patterns r) values bs.
