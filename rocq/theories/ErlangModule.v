(** The Erlang code of a module, compiler-core/src/erlang.rs.

    Modelled are [module], [Generator::new], [module_document] and what it calls: the attributes of
    the module, what it exports, its documentation, the definitions of types (ErlangTypes.v) and the
    functions with their attributes (ErlangCode.v), those of other languages too.  Not modelled is
    the code for [echo]; ErlangCode.v says what is left out of the bodies of functions.

    Simplifications: the path of the source is the one left when the root is taken off; hash sets
    are lists; a constant keeps what is read here. *)
From Coq Require Import String NArith ZArith List Bool.
From Verif Require Import Text Strings ErlangSource ErlangTypes ErlangCode.
Import ListNotations.
Local Open Scope nat_scope.
Local Open Scope list_scope.

Local Notation "'let*' x ':=' a 'in' b" :=
  (match a with Some x => b | None => None end) (at level 200, x name, a at level 100, b at level 200).

(** [Publicity], ast.rs, 807-842. *)
Inductive publicity := Public | Private | Internal.
Definition is_private (p : publicity) : bool := match p with Private => true | _ => false end.
Definition is_internal (p : publicity) : bool := match p with Internal => true | _ => false end.
Definition is_importable (p : publicity) : bool := match p with Private => false | _ => true end.

(** [Constant], ast/constant.rs, 12-121, without the constructors that do not reach the generator.
    A literal is an integer, a float, a string or a bit array.  A variable is that of a function,
    with the module and name it was defined with, or of a constant, with its value; [function_type]
    is whether its type is that of functions. *)
Inductive constant :=
| CLiteral
| CTuple (elements : list constant)
| CList (elements : list constant) (tail : option constant)
| CRecord (arguments : option (list constant))
| CBinaryOperator (left right : constant)
| CFunction (name module function : text) (external_erlang : option (text * text))
| CConstant (name : text) (function_type : bool) (literal : constant).

(** [Function], ast.rs, 865-881; [mf_start] is where its location starts, [mf_supports_erlang]
    what [implementations.supports(Target::Erlang)] gives, [mf_types] are the types of its
    arguments. *)
Record module_fn := ModuleFunction {
  mf_function : function;
  mf_start : N;
  mf_types : list gtype;
  mf_return : gtype;
  mf_publicity : publicity;
  mf_documentation : option text;
  mf_external : option (text * text);
  mf_supports_erlang : bool
}.

(** [TypedModule], ast.rs, 60-69. *)
Record module := Module_ {
  m_name : text;
  m_path : text;
  m_internal : bool;
  m_documentation : list text;
  m_constants : list (publicity * constant);
  m_types : list custom_type;
  m_functions : list module_fn;
  m_unused : list N
}.

(** [replace("\\", "\\\\")], 207. *)
Definition escaped_path (path : text) : text :=
  flat_map (fun c => if (c =? 92)%N then [92; 92]%N else [c]) path.

(** [find_referenced_private_functions], 4361-4411. *)
Fixpoint find_referenced_private_functions (c : constant) : list text :=
  match c with
  | CLiteral => []
  | CFunction name _ _ _ => [name]
  | CConstant name function_type _ => if function_type then [name] else []
  | CRecord arguments =>
      match arguments with
      | Some l => flat_map find_referenced_private_functions l
      | None => []
      end
  | CBinaryOperator a b =>
      find_referenced_private_functions a ++ find_referenced_private_functions b
  | CTuple l => flat_map find_referenced_private_functions l
  | CList l tail =>
      flat_map find_referenced_private_functions l ++
      match tail with Some c => find_referenced_private_functions c | None => [] end
  end.
(** [find_private_functions_referenced_in_importable_constants], 4348-4359. *)
Definition overridden_publicity (m : module) : list text :=
  flat_map (fun '(p, c) => if is_importable p then find_referenced_private_functions c else [])
    (m_constants m).

(** [function_export], 3599-3622. *)
Definition function_export (overridden : list text) (f : module_fn) : option (text * N) :=
  let name := f_name (mf_function f) in
  if negb (mf_supports_erlang f) then None
  else if negb (is_importable (mf_publicity f)) && negb (existsb (text_eqb name) overridden) then None
  else Some (escape_erlang_existing_name name, N.of_nat (length (f_arguments (mf_function f)))).
Fixpoint filter_map {A B} (f : A -> option B) (l : list A) : list B :=
  match l with
  | [] => []
  | a :: l => match f a with Some b => b :: filter_map f l | None => filter_map f l end
  end.

(** [module_documentation], 266-282, with [join] of itertools. *)
Fixpoint join (l : list text) : text :=
  match l with [] => [] | [t] => t | t :: l => t ++ [10%N] ++ join l end.
Definition module_documentation (m : module) : list call :=
  if m_internal m then [moduledoc_attribute DocFalse]
  else match m_documentation m with
       | [] => []
       | l => [moduledoc_attribute (DocString (join l))]
       end.

(** [function_doc_attribute], 703-721. *)
Definition function_doc_attribute (m : module) (f : module_fn) : list call :=
  if m_internal m || is_internal (mf_publicity f) then [doc_attribute DocFalse]
  else match mf_documentation f with
       | Some ((_ :: _) as documentation) => [doc_attribute (DocString documentation)]
       | _ => []
       end.

(** [function_arguments_names], 725-770, for an external function. *)
Fixpoint external_arguments_names (arguments : list arg_names) : M (list text) :=
  match arguments with
  | [] => ret []
  | ArgDiscard _ :: l =>
      do x <- new_generated_variable; do xs <- external_arguments_names l; ret (x :: xs)
  | ArgNamed name location :: l =>
      do x <- new_erlang_variable name location; do xs <- external_arguments_names l; ret (x :: xs)
  end.

(** [module_function], 585-663. *)
Definition function_forms (m : module) (lines : N -> N) (f : module_fn) : option (list call) :=
  let path := escaped_path (m_path m) in
  let code := mf_function f in
  if existsb (N.eqb (mf_start f)) (m_unused m) then Some []
  else if match mf_external f with Some _ => is_private (mf_publicity f) | None => false end then Some []
  else if negb (mf_supports_erlang f) then Some []
  else
    let function_name := escape_erlang_existing_name (f_name code) in
    let* spec := function_spec_attribute (m_name m) function_name (mf_types f) (mf_return f) in
    let* body :=
      match mf_external f with
      | None => module_function (m_name m) path lines code
      | Some (external_module, external_name) =>
          match external_arguments_names (f_arguments code) (State [] [] 0) with
          | Some (xs, _) =>
              Some ([start_function function_name (N.of_nat (length (f_arguments code))) xs;
                     start_remote_call (erlang_module_name external_module) external_name] ++
                    map variable xs ++ [end_call; end_function])
          | None => None
          end
      end in
    Some ([file_attribute path (lines (mf_start f))] ++ spec ++ function_doc_attribute m f ++ body).
Fixpoint functions_forms (m : module) (lines : N -> N) (l : list module_fn) : option (list call) :=
  match l with
  | [] => Some []
  | f :: l =>
      let* a := function_forms m lines f in let* b := functions_forms m lines l in Some (a ++ b)
  end.

(** [module_document], 217-264. *)
Definition module_document (m : module) (lines : N -> N) : option (list call) :=
  let* types := type_definitions (m_name m) (m_types m) in
  let* functions := functions_forms m lines (m_functions m) in
  Some ([compile_attribute
           (map str ["no_auto_import"; "nowarn_ignored"; "nowarn_unused_vars";
                     "nowarn_unused_function"; "nowarn_nomatch"; "inline"]%string);
         export_attribute (filter_map (function_export (overridden_publicity m)) (m_functions m));
         export_type_attribute (map type_export (m_types m))] ++
        module_documentation m ++ types ++ functions).

(** [module], 3582-3593. *)
Definition generated_module (m : module) (lines : N -> N) : option text :=
  let* calls := module_document m lines in build (Some (erlang_module_name (m_name m))) calls.
