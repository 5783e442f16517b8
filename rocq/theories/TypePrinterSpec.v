(** When a type printed as source code should be read as that type.  Of [TypePrinter] this uses the
    types and what there is to be printed: worlds, statements and operations of the printer. *)
From Coq Require Import String NArith List Bool Arith.
From Verif Require Import Text Lexer LexerSpec TypePrinter.
Import ListNotations.
Local Open Scope list_scope.
Local Open Scope nat_scope.

(** ** Names *)
Definition is_a_name (w : text) : Prop := word (Name w) w.
Definition is_a_type_name (w : text) : Prop :=
  exists c u, w = c :: u /\ an_upper c /\ Forall a_word_character u.

(** ** Types *)
Fixpoint variables (t : type) : list N :=
  match t with
  | Named _ _ a => flat_map variables a
  | TFn a r => flat_map variables a ++ variables r
  | Var i => [i]
  | Tuple e => flat_map variables e
  end.
Fixpoint rename (f : N -> N) (t : type) : type :=
  match t with
  | Named m n a => Named m n (map (rename f) a)
  | TFn a r => TFn (map (rename f) a) (rename f r)
  | Var i => Var (f i)
  | Tuple e => Tuple (map (rename f) e)
  end.
(** The same type with other type variables, different ones for different ones. *)
Definition alike (t t' : type) : Prop :=
  exists f, (forall i j, In i (variables t) -> In j (variables t) -> f i = f j -> i = j) /\ t' = rename f t.
(** [Mentions m n t]: the type [n] of module [m] is named in [t]. *)
Inductive mentions (m n : text) : type -> Prop :=
| mentions_it a : mentions m n (Named m n a)
| mentions_argument t m' n' a : In t a -> mentions m n t -> mentions m n (Named m' n' a)
| mentions_parameter t a r : In t a -> mentions m n t -> mentions m n (TFn a r)
| mentions_return a r : mentions m n r -> mentions m n (TFn a r)
| mentions_element t e : In t e -> mentions m n t -> mentions m n (Tuple e).
(** Every named type has as many arguments as it has parameters. *)
Inductive well_formed (arity : text -> text -> nat) : type -> Prop :=
| wf_named m n a : length a = arity m n -> Forall (well_formed arity) a -> well_formed arity (Named m n a)
| wf_fn a r : Forall (well_formed arity) a -> well_formed arity r -> well_formed arity (TFn a r)
| wf_var i : well_formed arity (Var i)
| wf_tuple e : Forall (well_formed arity) e -> well_formed arity (Tuple e).

(** ** Modules *)
Fixpoint entry {A} (k : text) (l : list (text * A)) : option A :=
  match l with
  | [] => None
  | (k', a) :: l => if list_eq_dec N.eq_dec k k' then Some a else entry k l
  end.
(** The constructor is the type [n] of [m] itself. *)
Definition is_the_type (m n : text) (c : type_constructor) : Prop := tc_type c = Named m n (tc_parameters c).
Definition sound_parameters (ps : list type) : Prop := exists ids, ps = map Var ids /\ NoDup ids.
Definition sound_constructor (arity : text -> text -> nat) (m : text) (c : type_constructor) : Prop :=
  tc_module c = m /\ sound_parameters (tc_parameters c) /\ well_formed arity (tc_type c).
Record sound_world (arity : text -> text -> nat) (w : world) : Prop := {
  sound_modules : NoDup (map fst (modules w));
  sound_types : forall m i n c, entry m (modules w) = Some i -> In (n, c) (mi_types i) ->
    is_a_type_name n /\ entry n (mi_types i) = Some c /\ sound_constructor arity m c;
  (** Every alias that is public can be imported. *)
  sound_aliases : forall m i n a, entry m (modules w) = Some i -> In (n, a) (mi_aliases i) ->
    ta_public a = true ->
    exists c, entry n (mi_types i) = Some c /\ tc_importable c = true
      /\ tc_type c = ta_type a /\ tc_parameters c = ta_parameters a;
  sound_prelude : exists p, entry prelude (modules w) = Some p
    /\ (forall n c, In (n, c) (mi_types p) -> is_the_type prelude n c)
    /\ (forall n, type_internal w prelude n = false)
}.
Definition sound_statement (arity : text -> text -> nat) (module : text) (s : statement) : Prop :=
  match s with
  | Import_ _ used_name types =>
      (forall u, used_name = Some u -> is_a_name u)
      /\ (forall x y, In (x, Some y) types -> is_a_type_name y)
  | CustomType n ids _ => is_a_type_name n /\ NoDup ids /\ arity module n = length ids
  | Alias_ n ids t _ _ => is_a_type_name n /\ NoDup ids /\ well_formed arity t
  end.

(** The names of types that a statement takes. *)
Definition takes (s : statement) : list text :=
  match s with
  | Import_ _ _ types => map (fun x => match snd x with Some y => y | None => fst x end) types
  | CustomType n _ _ | Alias_ n _ _ _ _ => [n]
  end.
(** No type of the prelude is imported by name. *)
Definition no_prelude_imports (ss : list statement) : Prop :=
  forall u types, In (Import_ prelude u types) ss -> types = [].
Definition module_imported (ss : list statement) (m : text) : Prop :=
  exists u types, In (Import_ m (Some u) types) ss.
(** The type [n] of [m] can be imported as [x] from [m']. *)
Definition provides (w : world) (m' x m n : text) : Prop :=
  exists i c, entry m' (modules w) = Some i /\ entry x (mi_types i) = Some c
    /\ tc_importable c = true /\ is_the_type m n c.
(** The public alias [x] of the module [m'] stands for the internal type [n] of [m]. *)
Definition reexports (w : world) (m' x m n : text) : Prop :=
  type_internal w m n = true
  /\ exists i a, entry m' (modules w) = Some i /\ mi_is_internal i = false
       /\ mi_package i = type_package w m n
       /\ In (x, a) (mi_aliases i) /\ ta_public a = true /\ ta_type a = Named m n (ta_parameters a).

(** A type that can be named in a module with the statements. *)
Inductive in_sight (w : world) (module : text) (ss : list statement) : text -> text -> Prop :=
| sight_defined n ids importable : In (CustomType n ids importable) ss -> in_sight w module ss module n
| sight_alias x ids m n importable public :
    In (Alias_ x ids (Named m n (map Var ids)) importable public) ss ->
    (m = prelude -> no_prelude_imports ss) -> in_sight w module ss m n
| sight_imported m' u types x y m n :
    In (Import_ m' u types) ss -> In (x, y) types -> provides w m' x m n ->
    (m = prelude -> no_prelude_imports ss) -> in_sight w module ss m n
| sight_prelude n :
    provides w prelude n prelude n -> no_prelude_imports ss -> ~ In n (flat_map takes ss) ->
    in_sight w module ss prelude n
| sight_module m n :
    module_imported ss m -> provides w m n m n ->
    (forall m' x, reexports w m' x m n -> module_imported ss m') -> in_sight w module ss m n
| sight_reexported m n :
    (exists m' x, reexports w m' x m n) ->
    (forall m' x, reexports w m' x m n -> module_imported ss m') -> in_sight w module ss m n.

(** ** Printers *)

(** Type variables get names while functions are analysed. *)
Definition with_variables (vs : list (N * text)) (ns : names) : names :=
  fold_left (fun ns v => type_variable_in_scope (fst v) (snd v) ns) vs ns.
(** The name given to a variable: the last one. *)
Fixpoint given_name (vs : list (N * text)) (i : N) : option text :=
  match vs with
  | [] => None
  | (j, x) :: vs =>
      match given_name vs i with
      | Some y => Some y
      | None => if N.eq_dec i j then Some x else None
      end
  end.
(** Two moments in the use of a printer; the names that are taken may have been cleared in between. *)
Inductive used (clearing : bool) (p : printer) : printer -> Prop :=
| used_not : used clearing p p
| used_print t p' : used clearing p p' -> used clearing p (snd (print_type t p'))
| used_print_expanded t p' : used clearing p p' -> used clearing p (snd (print_type_without_aliases t p'))
| used_variable i p' : used clearing p p' -> used clearing p (snd (type_variable i p'))
| used_register x p' : used clearing p p' -> used clearing p (register_type_variable x p')
| used_clear p' : clearing = true -> used clearing p p' -> used clearing p (clear_type_variables p').
(** Neither given a name nor printed before. *)
Definition unnamed (vs : list (N * text)) (p : printer) (i : N) : Prop :=
  given_name vs i = None /\ ~ In i (map fst (printed_type_variables p)).
(** No keyword is the name of a variable of [t] after [p] printed it, and no two variables of it were
    given one name. *)
Definition readable_variables (vs : list (N * text)) (t : type) (p : printer) : Prop :=
  (forall i k, In i (variables t) -> fst (type_variable i p) <> keyword_text k)
  /\ (forall i j x, In i (variables t) -> In j (variables t) ->
        given_name vs i = Some x -> given_name vs j = Some x -> i = j).

(** ** Names of type variables *)
Definition lowercase (w : text) : Prop := w <> [] /\ Forall a_lower w.
(** Shorter words first, and words of one length in the order of the alphabet. *)
Definition precedes (x y : text) : Prop :=
  length x < length y
  \/ (length x = length y
      /\ exists common a b r r', x = common ++ a :: r /\ y = common ++ b :: r' /\ (a < b)%N).
(** ** Trees of printed types *)
Inductive stands_for (written : text -> text -> option text -> text -> Prop) (name : N -> text)
  : type -> type_ast -> Prop :=
| stands_named m n a q x l : written m n q x -> Forall2 (stands_for written name) a l ->
    stands_for written name (Named m n a) (AstConstructor q (Some x) l (negb (Nat.eqb (length a) 0)))
| stands_fn a r l s : Forall2 (stands_for written name) a l -> stands_for written name r s ->
    stands_for written name (TFn a r) (AstFn l s)
| stands_var i : stands_for written name (Var i) (AstVar (name i))
| stands_tuple e l : Forall2 (stands_for written name) e l -> stands_for written name (Tuple e) (AstTuple l).
(** The last segment of the name of a module. *)
Definition last_part (m s : text) : Prop := ~ In 47%N s /\ (m = s \/ exists a, m = a ++ 47%N :: s).
(** The name a module was last imported by. *)
Fixpoint imported_as (ss : list statement) (m : text) : option text :=
  match ss with
  | [] => None
  | s :: ss =>
      match imported_as ss m with
      | Some u => Some u
      | None =>
          match s with
          | Import_ m' (Some u) _ => if list_eq_dec N.eq_dec m m' then Some u else None
          | _ => None
          end
      end
  end.

(** ** Constructors *)
Inductive naming := ConstructorNamed (module name alias : text) | ModuleNamed (module alias : text).
Definition name_it (x : naming) (ns : names) : names :=
  match x with
  | ConstructorNamed m n a => named_constructor_in_scope m n a ns
  | ModuleNamed m a => imported_module m a ns
  end.
Definition name_all (l : list naming) (ns : names) : names := fold_left (fun ns x => name_it x ns) l ns.
(** The constructor [n] of [m] has the local name [a]: it got it, and after that neither the constructor
    got another name nor another constructor that name. *)
Definition locally_named (l : list naming) (m n a : text) : Prop :=
  exists before after, l = before ++ ConstructorNamed m n a :: after
    /\ (forall a', ~ In (ConstructorNamed m n a') after)
    /\ (forall m' n', ~ In (ConstructorNamed m' n' a) after).
Definition module_named (l : list naming) (m u : text) : Prop :=
  exists before after, l = before ++ ModuleNamed m u :: after /\ (forall u', ~ In (ModuleNamed m u') after).
