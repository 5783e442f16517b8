(** Types printed as source code, compiler-core/src/type_/printer.rs; the names of types in a module,
    which they are printed with: compiler-core/src/type_/environment.rs, analyse/imports.rs and
    analyse.rs; and reading a type: [parse_type] of compiler-core/src/parse.rs and [type_from_ast] of
    compiler-core/src/type_/hydrator.rs.

    Simplifications: type variables hold their links, and unbound ones are like generic ones; the
    package and the publicity of a named type are those of its definition and are a parameter; hash
    maps are lists of entries; locations are left out; an error is [None] whatever it is; ids and
    [uid] have no limit. *)
From Coq Require Import String NArith List Bool Arith.
From Verif Require Import Text Lexer.
Import ListNotations.
Local Open Scope nat_scope.
Local Open Scope list_scope.

Local Notation "'let*' x ':=' a 'in' b" :=
  (match a with Some x => b | None => None end) (at level 200, x pattern, a at level 100, b at level 200).

(** [Type], type_.rs 53-104. *)
Inductive type :=
| Named (module name : text) (arguments : list type)
| TFn (arguments : list type) (return_ : type)
| Var (id : N)
| Tuple (elements : list type).

Section All.
  Variable f : type -> type -> bool.
  Fixpoint all_same (one other : list type) : bool :=
    match one, other with
    | [], [] => true
    | a :: one, b :: other => f a b && all_same one other
    | _, _ => false
    end.
End All.
(** [Type::same_as], type_.rs 561-673. *)
Fixpoint same_as (one other : type) : bool :=
  match one, other with
  | Named m n a, Named m' n' a' => text_eqb m m' && text_eqb n n' && all_same same_as a a'
  | TFn a r, TFn a' r' => all_same same_as a a' && same_as r r'
  | Tuple e, Tuple e' => all_same same_as e e'
  | Var i, Var j => N.eqb i j
  | _, _ => false
  end.
(** [compare_arguments], printer.rs 150-159. *)
Definition compare_arguments (arguments parameters : list type) : bool := all_same same_as arguments parameters.

(** ** Maps *)
Definition pair_eqb (a b : text * text) : bool := text_eqb (fst a) (fst b) && text_eqb (snd a) (snd b).
Section Maps.
  Context {K V : Type} (same : K -> K -> bool).
  Fixpoint get (k : K) (m : list (K * V)) : option V :=
    match m with
    | [] => None
    | (k', v) :: m => if same k k' then Some v else get k m
    end.
  Definition without (k : K) (m : list (K * V)) : list (K * V) :=
    filter (fun e => negb (same k (fst e))) m.
  Definition put (k : K) (v : V) (m : list (K * V)) : list (K * V) := (k, v) :: without k m.
End Maps.
(** [BiMap] of the [bimap] crate: inserting removes what has the key or the value. *)
Definition bimap := list ((text * text) * text).
Definition remove_by_right (r : text) (b : bimap) : bimap :=
  filter (fun e => negb (text_eqb r (snd e))) b.
Definition bimap_insert (l : text * text) (r : text) (b : bimap) : bimap :=
  (l, r) :: remove_by_right r (without pair_eqb l b).

(** ** [Names], printer.rs 15-348 *)
Record names := Names {
  local_types : bimap;
  imported_modules : list (text * text);
  type_variables : list (N * text);
  local_value_constructors : bimap;
  reexport_aliases : list ((text * text) * (text * text))
}.
Definition new_names : names := Names [] [] [] [] [].
Definition set_local_types b ns :=
  Names b (imported_modules ns) (type_variables ns) (local_value_constructors ns) (reexport_aliases ns).

(** [named_type_in_scope], 173-183. *)
Definition named_type_in_scope (module_name type_name local_alias : text) (ns : names) : names :=
  set_local_types
    (bimap_insert (module_name, type_name) local_alias (remove_by_right local_alias (local_types ns))) ns.
(** [type_in_scope], 185-205. *)
Definition type_in_scope (local_alias : text) (t : type) (parameters : list type) (ns : names) : names :=
  let removed := set_local_types (remove_by_right local_alias (local_types ns)) ns in
  match t with
  | Named module name arguments =>
      if compare_arguments arguments parameters then named_type_in_scope module name local_alias ns
      else removed
  | _ => removed
  end.
(** [type_variable_in_scope], 207-209, and [imported_module], 214-222. *)
Definition type_variable_in_scope (id : N) (local_alias : text) (ns : names) : names :=
  Names (local_types ns) (imported_modules ns) (put N.eqb id local_alias (type_variables ns))
    (local_value_constructors ns) (reexport_aliases ns).
Definition imported_module (module_name module_alias : text) (ns : names) : names :=
  Names (local_types ns) (put text_eqb module_name module_alias (imported_modules ns)) (type_variables ns)
    (local_value_constructors ns) (reexport_aliases ns).
(** [named_constructor_in_scope], 300-311. *)
Definition named_constructor_in_scope (module_name value_name local_alias : text) (ns : names) : names :=
  Names (local_types ns) (imported_modules ns) (type_variables ns)
    (bimap_insert (module_name, value_name) local_alias
       (remove_by_right local_alias (local_value_constructors ns)))
    (reexport_aliases ns).

Inductive name_context_information :=
| Unimported (module name : text)
| Unqualified (name : text)
| Qualified (module name : text).
Inductive print_mode := Normal | ExpandAliases.

(** [named_type], 261-298. *)
Definition named_type (module name : text) (mode : print_mode) (ns : names) : name_context_information :=
  let by_module module name :=
    match get text_eqb module (imported_modules ns) with
    | Some module => Qualified module name
    | None => Unimported module name
    end in
  match mode with
  | ExpandAliases => by_module module name
  | Normal =>
      match get pair_eqb (module, name) (local_types ns) with
      | Some name => Unqualified name
      | None =>
          match get pair_eqb (module, name) (reexport_aliases ns) with
          | Some (module, alias) => by_module module alias
          | None => by_module module name
          end
      end
  end.
(** [named_constructor], 313-331. *)
Definition named_constructor (module name : text) (ns : names) : name_context_information :=
  match get pair_eqb (module, name) (local_value_constructors ns) with
  | Some name => Unqualified name
  | None =>
      match get text_eqb module (imported_modules ns) with
      | Some module => Qualified module name
      | None => Unimported module name
      end
  end.

(** ** The types of a module *)

(** [TypeConstructor] and [TypeAliasConstructor], type_.rs: of the publicity only what is asked for. *)
Record type_constructor := TypeConstructor {
  tc_module : text;
  tc_parameters : list type;
  tc_type : type;
  tc_importable : bool
}.
Record type_alias := TypeAlias { ta_parameters : list type; ta_type : type; ta_public : bool }.
(** [ModuleInterface], type_.rs. *)
Record interface := Interface {
  mi_package : text;
  mi_is_internal : bool;
  mi_types : list (text * type_constructor);
  mi_aliases : list (text * type_alias)
}.
(** What there is: the modules that can be imported, with the package and whether it is internal of
    each type. *)
Record world := World {
  modules : list (text * interface);
  type_package : text -> text -> text;
  type_internal : text -> text -> bool
}.
Definition prelude : text := str "gleam".

(** [maybe_register_reexport_alias], printer.rs 227-259. *)
Definition maybe_register_reexport_alias (w : world) (package alias_module alias_name : text) (alias : type_alias)
  (ns : names) : names :=
  match ta_type alias with
  | Named module name arguments =>
      if text_eqb (type_package w module name) package && type_internal w module name
         && compare_arguments arguments (ta_parameters alias)
      then Names (local_types ns) (imported_modules ns) (type_variables ns) (local_value_constructors ns)
             (put pair_eqb (module, name) (alias_module, alias_name) (reexport_aliases ns))
      else ns
  | _ => ns
  end.

(** [Environment], environment.rs 50-117: the part about types. *)
Record environment := Environment {
  current_module : text;
  current_package : text;
  module_types : list (text * type_constructor);
  env_imported_modules : list (text * interface);
  env_names : names
}.
Definition set_names ns e :=
  Environment (current_module e) (current_package e) (module_types e) (env_imported_modules e) ns.

(** [Environment::build_names], environment.rs 177-209, the types; [get] makes [modules] a map. *)
Definition build_names (w : world) (p : interface) : names :=
  let ns := fold_left (fun ns n => named_type_in_scope prelude n n ns) (map fst (mi_types p)) new_names in
  fold_left
    (fun ns m =>
       let '(name, i) := m in
       if mi_is_internal i then ns
       else fold_left
              (fun ns a =>
                 if ta_public (snd a)
                 then maybe_register_reexport_alias w (mi_package i) name (fst a) (snd a) ns
                 else ns)
              (mi_aliases i) ns)
    (modules w) ns.
(** [Environment::new], environment.rs 129-174. *)
Definition new_environment (w : world) (module package : text) : option environment :=
  let* p := get text_eqb prelude (modules w) in
  Some (Environment module package (mi_types p) [] (build_names w p)).

(** [assert_unique_type_name] and [insert_type_constructor], environment.rs 393-409, 433-447. *)
Definition name_taken (n : text) (e : environment) : bool :=
  match get text_eqb n (module_types e) with
  | None => false
  | Some c => negb (text_eqb (tc_module c) prelude)
  end.
Definition insert_type_constructor (n : text) (c : type_constructor) (e : environment) : option environment :=
  if name_taken n e then None
  else Some (Environment (current_module e) (current_package e) (put text_eqb n c (module_types e))
               (env_imported_modules e) (env_names e)).
(** [get_importable_type], type_.rs 1198-1205, and [get_type_constructor], environment.rs 463-497. *)
Definition get_importable_type (n : text) (i : interface) : option type_constructor :=
  let* c := get text_eqb n (mi_types i) in if tc_importable c then Some c else None.
Definition get_type_constructor (module : option text) (n : text) (e : environment) : option type_constructor :=
  match module with
  | None => get text_eqb n (module_types e)
  | Some m => let* i := get text_eqb m (env_imported_modules e) in get_importable_type n i
  end.

(** What a module says about types: imports and definitions. *)
Inductive statement :=
| Import_ (module : text) (used_name : option text) (unqualified_types : list (text * option text))
| CustomType (n : text) (parameters : list N) (importable : bool)
| Alias_ (n : text) (parameters : list N) (t : type) (importable public : bool).

(** [register_module], imports.rs 319-372. *)
Definition register_module (module : text) (used_name : option text) (i : interface) (e : environment)
  : option environment :=
  match used_name with
  | None => Some e
  | Some used_name =>
      match get text_eqb used_name (env_imported_modules e) with
      | Some _ => None
      | None =>
          Some (Environment (current_module e) (current_package e) (module_types e)
                  (put text_eqb used_name i (env_imported_modules e))
                  (imported_module module used_name (env_names e)))
      end
  end.
(** [register_unqualified_type], imports.rs 85-155. *)
Definition register_unqualified_type (i : interface) (import : text * option text) (e : environment)
  : option environment :=
  let imported_name := match snd import with Some n => n | None => fst import end in
  let* c := get_importable_type (fst import) i in
  let e := set_names (type_in_scope imported_name (tc_type c) (tc_parameters c) (env_names e)) e in
  insert_type_constructor imported_name c e.
Fixpoint register_unqualified_types (i : interface) (imports : list (text * option text)) (e : environment)
  : option environment :=
  match imports with
  | [] => Some e
  | import :: imports =>
      let* e := register_unqualified_type i import e in register_unqualified_types i imports e
  end.
(** [register_types_from_custom_type], analyse.rs 1359-1465. *)
Definition register_custom_type (n : text) (parameters : list N) (importable : bool) (e : environment)
  : option environment :=
  let parameters := map Var parameters in
  if name_taken n e then None
  else
    let* e :=
      insert_type_constructor n
        (TypeConstructor (current_module e) parameters (Named (current_module e) n parameters) importable) e in
    Some (set_names (named_type_in_scope (current_module e) n n (env_names e)) e).
(** [register_type_alias], analyse.rs 1467-1551. *)
Definition register_type_alias (w : world) (n : text) (parameters : list N) (t : type) (importable public : bool)
  (e : environment) : option environment :=
  let parameters := map Var parameters in
  if name_taken n e then None
  else
    let e := set_names (type_in_scope n t parameters (env_names e)) e in
    let* e := insert_type_constructor n (TypeConstructor (current_module e) parameters t importable) e in
    Some (set_names
            (maybe_register_reexport_alias w (current_package e) (current_module e) n
               (TypeAlias parameters t public) (env_names e)) e).

Definition register (w : world) (s : statement) (e : environment) : option environment :=
  match s with
  | Import_ module used_name types =>
      let* i := get text_eqb module (modules w) in
      let* e := register_module module used_name i e in
      register_unqualified_types i types e
  | CustomType n parameters importable => register_custom_type n parameters importable e
  | Alias_ n parameters t importable public => register_type_alias w n parameters t importable public e
  end.
Fixpoint register_all (w : world) (ss : list statement) (e : environment) : option environment :=
  match ss with
  | [] => Some e
  | s :: ss => let* e := register w s e in register_all w ss e
  end.
Definition analysed_types (w : world) (module package : text) (ss : list statement) : option environment :=
  let* e := new_environment w module package in register_all w ss e.

(** ** [Printer], printer.rs 385-599 *)
Record printer := Printer {
  p_names : names;
  uid : N;
  printed_type_variables : list (N * text);
  printed_type_variable_names : list text
}.
(** [new], 405-412, [new_without_type_variables], 432-439, [clear_type_variables], 445-447, and
    [register_type_variable], 453-455. *)
Definition new_printer (ns : names) : printer := Printer ns 0 [] (map snd (type_variables ns)).
Definition new_without_type_variables (ns : names) : printer := Printer ns 0 [] [].
Definition clear_type_variables (p : printer) : printer :=
  Printer (p_names p) (uid p) (printed_type_variables p) [].
Definition register_type_variable (n : text) (p : printer) : printer :=
  Printer (p_names p) (uid p) (printed_type_variables p) (n :: printed_type_variable_names p).

(** [next_letter], 578-598: the loop; the letters come last one first. *)
Fixpoint letters (fuel : nat) (rest : N) : text :=
  match fuel with
  | O => []
  | S fuel =>
      let n := (rest mod 26)%N in
      let rest := (rest / 26)%N in
      (n + 97)%N :: (if (rest =? 0)%N then [] else letters fuel (rest - 1)%N)
  end.
Definition letter (n : N) : text := rev (letters (S (N.size_nat n)) n).
Definition next_letter (p : printer) : text * printer :=
  (letter (uid p),
   Printer (p_names p) (uid p + 1)%N (printed_type_variables p) (printed_type_variable_names p)).

(** [type_variable], 559-576: the loop ends when a letter is not among the names, which is after as
    many steps as there are names. *)
Fixpoint new_variable (fuel : nat) (id : N) (p : printer) : text * printer :=
  let '(name, p) := next_letter p in
  match fuel with
  | O => (name, p)
  | S fuel =>
      if existsb (text_eqb name) (printed_type_variable_names p) then new_variable fuel id p
      else
        (name,
         Printer (p_names p) (uid p) (put N.eqb id name (printed_type_variables p))
           (name :: printed_type_variable_names p))
  end.
Definition type_variable (id : N) (p : printer) : text * printer :=
  match get N.eqb id (type_variables (p_names p)) with
  | Some name => (name, p)
  | None =>
      match get N.eqb id (printed_type_variables p) with
      | Some name => (name, p)
      | None => new_variable (S (length (printed_type_variable_names p))) id p
      end
  end.

(** [module.split('/').next_back()]. *)
Fixpoint last_segment (m : text) : text :=
  match m with
  | [] => []
  | c :: r => if existsb (N.eqb 47) m then last_segment r else m
  end.
Definition written_name (i : name_context_information) : text :=
  match i with
  | Qualified module name => module ++ str "." ++ name
  | Unqualified name => name
  | Unimported module name => last_segment module ++ str "." ++ name
  end.

Section Arguments.
  Variable print : type -> printer -> text * printer.
  (** [print_arguments], 544-556. *)
  Fixpoint print_arguments (ts : list type) (p : printer) : text * printer :=
    match ts with
    | [] => ([], p)
    | [t] => print t p
    | t :: ts =>
        let '(a, p) := print t p in
        let '(b, p) := print_arguments ts p in
        (a ++ str ", " ++ b, p)
    end.
End Arguments.
(** [print], 476-527. *)
Fixpoint print (mode : print_mode) (t : type) (p : printer) : text * printer :=
  match t with
  | Named module name arguments =>
      let w := written_name (named_type module name mode (p_names p)) in
      match arguments with
      | [] => (w, p)
      | _ =>
          let '(a, p) := print_arguments (print mode) arguments p in
          (w ++ str "(" ++ a ++ str ")", p)
      end
  | TFn arguments return_ =>
      let '(a, p) := print_arguments (print mode) arguments p in
      let '(r, p) := print mode return_ p in
      (str "fn(" ++ a ++ str ") -> " ++ r, p)
  | Var id => type_variable id p
  | Tuple elements =>
      let '(a, p) := print_arguments (print mode) elements p in
      (str "#(" ++ a ++ str ")", p)
  end.
(** [print_type], 457-461, [print_type_without_aliases], 470-474, and [print_constructor], 529-542. *)
Definition print_type (t : type) (p : printer) : text * printer := print Normal t p.
Definition print_type_without_aliases (t : type) (p : printer) : text * printer := print ExpandAliases t p.
Definition print_constructor (module name : text) (p : printer) : text :=
  written_name (named_constructor module name (p_names p)).
(** [print_module], 463-468. *)
Definition print_module (module : text) (p : printer) : text :=
  match get text_eqb module (imported_modules (p_names p)) with
  | Some module => module
  | None => last_segment module
  end.

(** ** Parsing *)

(** [TypeAst], ast.rs 344-476, and [TypeAstConstructorName]. *)
Inductive type_ast :=
| AstConstructor (module : option text) (name : option text) (arguments : list type_ast) (parentheses : bool)
| AstFn (arguments : list type_ast) (return_ : type_ast)
| AstVar (name : text)
| AstTuple (elements : list type_ast)
| AstHole (name : text).

(** [maybe_one] and [expect_one], parse.rs 4200-4205, 4503-4515, of symbols. *)
Definition symbol_dec (a b : symbol) : {a = b} + {a <> b}. Proof. decide equality. Defined.
Definition maybe_one (s : symbol) (ts : list token) : option (list token) :=
  match ts with
  | Symbol s' :: ts' => if symbol_dec s s' then Some ts' else None
  | _ => None
  end.

(** What a parser of something optional does: it fails, or what it found and what is left. *)
Definition parsed (A : Type) : Type := option (option A * list token).
(** [series_of] with a comma, parse.rs 4518-4561. *)
Fixpoint series_of {A} (fuel : nat) (parser : list token -> parsed A) (ts : list token)
  : option (list A * list token) :=
  match fuel with
  | O => None
  | S fuel =>
      match parser ts with
      | None => None
      | Some (None, ts) => Some ([], ts)
      | Some (Some a, ts) =>
          match maybe_one Comma ts with
          | None => Some ([a], ts)
          | Some ts =>
              match maybe_one Comma ts with
              | Some _ => None
              | None =>
                  match series_of fuel parser ts with
                  | Some (l, ts) => Some (a :: l, ts)
                  | None => None
                  end
              end
          end
      end
  end.
(** [parse_type_name_finish], parse.rs 3047-3116. *)
Definition parse_type_name_finish (types : list token -> option (list type_ast * list token))
  (module name : option text) (ts : list token) : parsed type_ast :=
  match maybe_one LeftParen ts with
  | Some ts =>
      match name with
      | None => None
      | Some _ =>
          let* (arguments, ts) := types ts in
          let* ts := maybe_one RightParen ts in
          Some (Some (AstConstructor module name arguments true), ts)
      end
  | None =>
      match maybe_one Less ts with
      | Some _ => None
      | None => Some (Some (AstConstructor module name [] false), ts)
      end
  end.
(** [parse_type], parse.rs 2945-3044, and [parse_types], 3119-3122. *)
Fixpoint parse_type (fuel : nat) (ts : list token) : parsed type_ast :=
  match fuel with
  | O => None
  | S fuel =>
      let types := series_of fuel (parse_type fuel) in
      match ts with
      | DiscardName name :: ts => Some (Some (AstHole name), ts)
      | Symbol Hash :: ts =>
          let* ts := maybe_one LeftParen ts in
          let* (elements, ts) := types ts in
          let* ts := maybe_one RightParen ts in
          Some (Some (AstTuple elements), ts)
      | Keyword Fn :: ts =>
          let* ts := maybe_one LeftParen ts in
          let* (arguments, ts) := types ts in
          let* ts := maybe_one RightParen ts in
          let* ts := maybe_one RArrow ts in
          match parse_type fuel ts with
          | Some (Some return_, ts) => Some (Some (AstFn arguments return_), ts)
          | _ => None
          end
      | UpName name :: ts => parse_type_name_finish types None (Some name) ts
      | Name module :: ts =>
          match maybe_one Dot ts with
          | Some (UpName name :: ts) => parse_type_name_finish types (Some module) (Some name) ts
          | Some ts => parse_type_name_finish types (Some module) None ts
          | None => Some (Some (AstVar module), ts)
          end
      | ts => Some (None, ts)
      end
  end.
(** A whole text that is a type: lexed, without comments and ends of lines ([next_tok], parse.rs), and
    parsed to its end.  Every step needs a token. *)
Definition significant (t : token) : bool :=
  match t with NewLine | CommentDoc _ | CommentNormal | CommentModule => false | _ => true end.
Definition read_type (source : text) : option type_ast :=
  match lex source with
  | (ts, Finished) =>
      let ts := filter significant (map (fun t => snd (fst t)) ts) in
      match parse_type (S (length ts)) ts with
      | Some (Some ast, []) => Some ast
      | _ => None
      end
  | _ => None
  end.

(** ** [Hydrator], hydrator.rs 22-343 *)

(** The variables that have a name, and the next id. *)
Record hydrator := Hydrator { created_type_variables : list (text * N); next_id : N }.

(** Instantiating the parameters and the type of a constructor and unifying the parameters with the
    arguments puts the arguments in the place of the parameters. *)
Fixpoint replaced (id : N) (parameters arguments : list type) : type :=
  match parameters, arguments with
  | Var i :: ps, a :: l => if (i =? id)%N then a else replaced id ps l
  | _ :: ps, _ :: l => replaced id ps l
  | _, _ => Var id
  end.
Fixpoint instantiated (parameters arguments : list type) (t : type) : type :=
  match t with
  | Named m n a => Named m n (map (instantiated parameters arguments) a)
  | TFn a r => TFn (map (instantiated parameters arguments) a) (instantiated parameters arguments r)
  | Var id => replaced id parameters arguments
  | Tuple e => Tuple (map (instantiated parameters arguments) e)
  end.

Section Each.
  Variable f : type_ast -> hydrator -> option (type * hydrator).
  Fixpoint each (l : list type_ast) (h : hydrator) : option (list type * hydrator) :=
    match l with
    | [] => Some ([], h)
    | a :: l =>
        let* (t, h) := f a h in
        let* (ts, h) := each l h in
        Some (t :: ts, h)
    end.
End Each.
(** [type_from_ast], 114-343.  New type variables are permitted and holes are not. *)
Fixpoint type_from_ast (e : environment) (a : type_ast) (h : hydrator) : option (type * hydrator) :=
  match a with
  | AstConstructor module name arguments parentheses =>
      let* (ts, h) := each (type_from_ast e) arguments h in
      let* name := name in
      let* c := get_type_constructor module name e in
      if parentheses && (length (tc_parameters c) =? 0) then None
      else if length arguments =? length (tc_parameters c)
      then Some (instantiated (tc_parameters c) ts (tc_type c), h)
      else None
  | AstTuple elements => let* (ts, h) := each (type_from_ast e) elements h in Some (Tuple ts, h)
  | AstFn arguments return_ =>
      let* (ts, h) := each (type_from_ast e) arguments h in
      let* (r, h) := type_from_ast e return_ h in
      Some (TFn ts r, h)
  | AstVar name =>
      match get text_eqb name (created_type_variables h) with
      | Some id => Some (Var id, h)
      | None =>
          Some (Var (next_id h),
                Hydrator ((name, next_id h) :: created_type_variables h) (next_id h + 1)%N)
      end
  | AstHole _ => None
  end.
(** What an annotation means where no type variable has a name yet. *)
Definition annotation (e : environment) (source : text) : option type :=
  let* a := read_type source in
  let* (t, _) := type_from_ast e a (Hydrator [] 0) in
  Some t.
