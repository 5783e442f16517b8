(** Erlang code for the bodies of functions, compiler-core/src/erlang.rs and erlang/pattern.rs.

    Modelled are literals of integers and strings, variables, constructors and functions as
    values, blocks, operators, lists, tuples, access to their elements, records and their updates,
    anonymous functions, calls, pipelines, [use], [let], [let assert], [todo], [panic] and [case]
    with its guards.  Not modelled are literals of floats and operators on them, bit arrays,
    constants of modules, [assert], [echo].

    Simplifications: a typed expression keeps what is read here, and a location only where it is
    read; labels are left out; hash maps are lists of entries, the last inserted first; counts are
    unbounded.  What is done to the builder is the list of calls of its methods, in order; [None]
    is a panic. *)
From Coq Require Import String NArith ZArith List Bool.
From Verif Require Import Text Strings ErlangSource ErlangTypes.
Import ListNotations.
Local Open Scope nat_scope.
Local Open Scope list_scope.

(** ** Typed expressions *)

(** [SrcSpan] *)
Definition span := (N * N)%type.
Definition span_eqb (a b : span) : bool := (fst a =? fst b)%N && (snd a =? snd b)%N.

(** [BinOp], compiler-core/src/ast.rs, without the operators of floats. *)
Inductive binop :=
| And | Or | Eq_ | NotEq | LtInt | LtEqInt | GtInt | GtEqInt
| AddInt | SubInt | MultInt | DivInt | RemainderInt | Concatenate.

(** [ValueConstructorVariant], type_.rs; [pure] is whether the purity is, and [function_arguments] is the number of arguments when the
    type of the constructor is that of a function. *)
Inductive variant :=
| LocalVariable (location : span)
| ModuleFn (module name : text) (arity : N) (external_erlang : option (text * text)) (pure : bool)
| Record_ (name : text) (function_arguments : option nat).

(** [Pattern], compiler-core/src/ast.rs. *)
Inductive pattern :=
| PDiscard (location : span)
| PInt (location : span) (value : Z)
| PString (location : span) (value : text)
| PVariable (location : span) (name : text)
| PAssign (location : span) (name : text) (p : pattern)
| PTuple (location : span) (elements : list pattern)
| PList (location : span) (elements : list pattern) (tail : option pattern)
| PConstructor (location : span) (name : text) (arguments : list pattern)
| PStringPrefix (location : span) (left_side_string : text)
    (left_side_assignment : option (text * span))
    (right_side_assignment : option text) (right_location : span).

(** [ClauseGuard].  A field is at an index of its record. *)
Inductive guard :=
| GuardInt (value : Z)
| GuardString (value : text)
| GuardRecord (name : text)
| GuardVar (name : text) (definition_location : span)
| GuardBlock (g : guard)
| GuardNot (g : guard)
| GuardBinaryOperator (operator : binop) (left right : guard)
| GuardTupleIndex (tuple : guard) (index : N)
| GuardFieldAccess (container : guard) (index : N).

(** [ArgNames] with its location. *)
Inductive arg_names := ArgDiscard (location : span) | ArgNamed (name : text) (location : span).

Inductive error_kind := Todo | Panic | LetAssert.

(** [TypedExpr] and [TypedStatement]. A [use] is the expression of its call; [end_] is the end of
    the location of the value. *)
Inductive expr :=
| Int (value : Z)
| String_ (value : text)
| Var (name : text) (constructor : variant)
| Block (statements : list stmt)
| NegateBool (value : expr)
| NegateInt (value : expr)
| BinOp (operator : binop) (left right : expr)
| List_ (elements : list expr) (tail : option expr)
| Tuple (elements : list expr)
| TupleIndex (tuple : expr) (index : N)
| RecordAccess (record : expr) (index : N)
| RecordUpdate (updated_record_assigned_name : option text) (updated_record : expr)
    (updated_record_location : span) (constructor : expr) (arguments : list expr)
| Fn (arguments : list arg_names) (body : list stmt) (pure : bool)
| Call (fun_ : expr) (arguments : list expr)
| Pipeline (assignments : list (text * span * expr)) (finally : expr)
| Failure (kind : error_kind) (location : span) (message : option expr)
| Case (subjects : list expr)
    (clauses : list (list pattern * list (list pattern) * option guard * expr))
with stmt :=
| Expression_ (e : expr)
| Let (p : pattern) (value : expr)
| LetAssert_ (p : pattern) (value : expr) (value_end : N) (message : option expr) (location : span).

(** ** The generator *)

(** [FunctionGenerator], 177-199, and what it reads of [Generator]. *)
Record context := Context {
  module_name : text; module_source_path : text; function_name : text; line_number : N -> N }.
Record state := State {
  taken_names : list (text * N); variable_names : list (span * text); generated_variables : N }.

Definition M (A : Type) : Type := state -> option (A * state).
Definition ret {A} (a : A) : M A := fun s => Some (a, s).
Definition bind {A B} (m : M A) (f : A -> M B) : M B :=
  fun s => match m s with Some (a, s) => f a s | None => None end.
Definition panic {A} : M A := fun _ => None.
Notation "'do' a <- m ; f" := (bind m (fun a => f)) (at level 200, a name, m at level 100, f at level 200).

Fixpoint get {A} (name : text) (l : list (text * A)) : option A :=
  match l with
  | [] => None
  | (n, a) :: l => if text_eqb n name then Some a else get name l
  end.
Fixpoint get_span {A} (location : span) (l : list (span * A)) : option A :=
  match l with
  | [] => None
  | (x, a) :: l => if span_eqb x location then Some a else get_span location l
  end.

(** [char::to_uppercase] on the letters a name can begin with *)
Definition to_uppercase (c : N) : N := if is_lower c then (c - 32)%N else c.
(** [variable_name], 3956-3961. *)
Definition variable_name (name : text) : text :=
  match name with [] => [] | c :: name => to_uppercase c :: name end.

(** [local_var_name], 506-511. *)
Definition local_var_name (variable_origin : span) : M text :=
  fun s => match get_span variable_origin (variable_names s) with
           | Some name => Some (name, s)
           | None => None
           end.

(** [new_erlang_variable], 540-549. *)
Definition new_erlang_variable (name : text) (location : span) : M text :=
  fun s =>
    let next := match get name (taken_names s) with Some i => (i + 1)%N | None => 0%N end in
    let erlang_name :=
      if (next =? 0)%N then variable_name name
      else variable_name name ++ [64%N] ++ decimal next in
    Some (erlang_name,
          State ((name, next) :: taken_names s) ((location, erlang_name) :: variable_names s)
            (generated_variables s)).

(** [new_generated_variable], 571-579. *)
Definition new_generated_variable : M text :=
  fun s =>
    let name :=
      if (generated_variables s =? 0)%N then str "_value"
      else str "_value@" ++ decimal (generated_variables s) in
    Some (name, State (taken_names s) (variable_names s) (generated_variables s + 1)).

(** [self.taken_names.clone()] and [self.taken_names = taken] *)
Definition current_names : M (list (text * N)) := fun s => Some (taken_names s, s).
Definition set_names (taken : list (text * N)) : M (list call) :=
  fun s => Some ([], State taken (variable_names s) (generated_variables s)).

Definition concat_map {A} (f : A -> M (list call)) : list A -> M (list call) :=
  fix concat_map l :=
    match l with
    | [] => ret []
    | a :: l => do first <- f a; do rest <- concat_map l; ret (first ++ rest)
    end.

(** [escape_erlang_existing_name], 4012-4017. *)
Definition escape_erlang_existing_name (name : text) : text :=
  if text_eqb name (str "module_info") then str "moduleInfo" else name.

(** ** Patterns *)

(** [variables_to_add_later]: the name of an alias, where it is, and its literal. *)
Definition aliases := list (text * (span * text)).

(** [PatternGenerator::pattern], erlang/pattern.rs, 130-296. [HashMap::insert] replaces. *)
Fixpoint pattern_ (p : pattern) (later : aliases) : M (list call * aliases) :=
  match p with
  | PDiscard _ => ret ([discard_pattern], later)
  | PInt _ value => ret ([int_pattern value], later)
  | PString _ value => ret ([string_pattern value], later)
  | PVariable location name =>
      do x <- new_erlang_variable name location; ret ([variable_pattern x], later)
  | PAssign location name p =>
      do inner <- pattern_ p later;
      do x <- new_erlang_variable name location;
      ret ([match_pattern] ++ fst inner ++ [variable_pattern x], snd inner)
  | PTuple _ elements =>
      do inner <- (fix patterns l later :=
                     match l with
                     | [] => ret ([], later)
                     | p :: l =>
                         do first <- pattern_ p later;
                         do rest <- patterns l (snd first);
                         ret (fst first ++ fst rest, snd rest)
                     end) elements later;
      ret ([start_tuple_pattern] ++ fst inner ++ [end_tuple_pattern], snd inner)
  | PList _ elements tail =>
      do inner <- (fix patterns l later :=
                     match l with
                     | [] => ret ([], later)
                     | p :: l =>
                         do first <- pattern_ p later;
                         do rest <- patterns l (snd first);
                         ret ([cons_list_pattern] ++ fst first ++ fst rest, snd rest)
                     end) elements later;
      match tail with
      | Some p => do rest <- pattern_ p (snd inner); ret (fst inner ++ fst rest, snd rest)
      | None => ret (fst inner ++ [empty_list_pattern], snd inner)
      end
  | PConstructor _ name arguments =>
      match arguments with
      | [] => ret ([atom_pattern (to_snake_case name)], later)
      | _ =>
          do inner <- (fix patterns l later :=
                         match l with
                         | [] => ret ([], later)
                         | p :: l =>
                             do first <- pattern_ p later;
                             do rest <- patterns l (snd first);
                             ret (fst first ++ fst rest, snd rest)
                         end) arguments later;
          ret ([start_tuple_pattern; atom_pattern (to_snake_case name)] ++ fst inner ++
               [end_tuple_pattern], snd inner)
      end
  | PStringPrefix _ left_side_string left_side_assignment right_side_assignment right_location =>
      let later :=
        match left_side_assignment with
        | Some (name, location) => (name, (location, left_side_string)) :: later
        | None => later
        end in
      do right <- match right_side_assignment with
                  | Some name =>
                      do x <- new_erlang_variable name right_location; ret [variable_pattern x]
                  | None => ret [discard_pattern]
                  end;
      ret ([start_bit_array_pattern; bit_array_segment; string_pattern left_side_string;
            bit_array_segment_default_size; bit_array_segment_specifiers [Utf8];
            bit_array_segment] ++ right ++
           [bit_array_segment_default_size; bit_array_segment_specifiers [Binary];
            end_bit_array_pattern], later)
  end.

(** The patterns of a clause, 2335-2351: one, or a tuple. *)
Definition clause_patterns (patterns : list pattern) : M (list call * aliases) :=
  match patterns with
  | [p] => pattern_ p []
  | _ =>
      do inner <- (fix each l later :=
                     match l with
                     | [] => ret ([], later)
                     | p :: l =>
                         do first <- pattern_ p later;
                         do rest <- each l (snd first);
                         ret (fst first ++ fst rest, snd rest)
                     end) patterns [];
      ret ([start_tuple_pattern] ++ fst inner ++ [end_tuple_pattern], snd inner)
  end.

(** [always_matches], compiler-core/src/ast.rs, 3514-3531. *)
Fixpoint always_matches (p : pattern) : bool :=
  match p with
  | PVariable _ _ | PDiscard _ => true
  | PAssign _ _ p => always_matches p
  | PTuple _ elements => forallb always_matches elements
  | _ => false
  end.

(** [Pattern::location], compiler-core/src/ast.rs, 3079-3096. *)
Fixpoint pattern_location (p : pattern) : span :=
  match p with
  | PDiscard location | PInt location _ | PString location _ | PVariable location _
  | PTuple location _ | PList location _ _ | PConstructor location _ _
  | PStringPrefix location _ _ _ _ => location
  | PAssign location _ p => (fst (pattern_location p), snd location)
    end.

(** The entries of a hash map in the order of their names: an entry is replaced by the next of the
    same name. *)
Fixpoint insert_sorted (entry : text * (span * text)) (l : aliases) : aliases :=
  match l with
  | [] => [entry]
  | (name, value) :: rest =>
      match text_cmp (fst entry) name with
      | Lt => entry :: l
      | Eq => (name, value) :: rest
      | Gt => (name, value) :: insert_sorted entry rest
      end
  end.
Fixpoint sorted_by_name (later : aliases) : aliases :=
  match later with
  | [] => []
  | entry :: later =>
      insert_sorted entry
        (filter (fun e => negb (text_eqb (fst entry) (fst e))) (sorted_by_name later))
  end.
(** [pattern_assignments], 3303-3340. *)
Definition pattern_assignments (later : aliases) : M (list call) :=
  concat_map (fun '(name, (location, value)) =>
    do x <- new_erlang_variable name location;
    ret [match_operator; variable_pattern x; string_ value]) (sorted_by_name later).

(** ** Guards *)

(** [guard_produces_literal_string], 3716-3733. *)
Fixpoint guard_produces_literal_string (g : guard) : bool :=
  match g with
  | GuardBlock g => guard_produces_literal_string g
  | GuardString _ => true
  | _ => false
  end.

(** The operators of guards, 3131-3154. *)
Definition guard_operator (operator : binop) : option text :=
  match operator with
  | Or => Some (str "orelse")
  | And => Some (str "andalso")
  | Eq_ => Some (str "=:=")
  | NotEq => Some (str "=/=")
  | GtInt => Some (str ">")
  | GtEqInt => Some (str ">=")
  | LtInt => Some (str "<")
  | LtEqInt => Some (str "=<")
  | AddInt => Some (str "+")
  | SubInt => Some (str "-")
  | MultInt => Some (str "*")
  | DivInt => Some (str "div")
  | RemainderInt => Some (str "rem")
  | Concatenate => None
  end.

(** [clause_guard], 3086-3192, [clause_guard_tuple_index], 3194-3205, and
    [clause_guard_string_concatenate], 3207-3242. *)
Fixpoint clause_guard (g : guard) (assignments : aliases) : M (list call) :=
  match g with
  | GuardInt value => ret [int value]
  | GuardString value => ret [string_ value]
  | GuardRecord name => ret [atom (to_snake_case name)]
  | GuardBlock g => clause_guard g assignments
  | GuardTupleIndex tuple index =>
      do inner <- clause_guard tuple [];
      ret ([start_remote_call (str "erlang") (str "element"); int (Z.of_N (index + 1))] ++ inner ++
           [end_call])
  | GuardFieldAccess container index =>
      do inner <- clause_guard container [];
      ret ([start_remote_call (str "erlang") (str "element"); int (Z.of_N (index + 1 + 1))] ++
           inner ++ [end_call])
  | GuardNot g =>
      do inner <- clause_guard g assignments; ret ([unary_operator (str "not")] ++ inner)
  | GuardBinaryOperator operator lhs rhs =>
      match guard_operator operator with
      | Some operator =>
          do l <- clause_guard lhs assignments;
          do r <- clause_guard rhs assignments;
          ret ([binary_operator operator] ++ l ++ r)
      | None =>
          let specifiers g := if guard_produces_literal_string g then [Utf8] else [Binary] in
          do l <- clause_guard lhs assignments;
          do r <- clause_guard rhs assignments;
          ret ([start_bit_array; bit_array_segment] ++ l ++
               [bit_array_segment_default_size; bit_array_segment_specifiers (specifiers lhs);
                bit_array_segment] ++ r ++
               [bit_array_segment_default_size; bit_array_segment_specifiers (specifiers rhs);
                end_bit_array])
      end
  | GuardVar name definition_location =>
      match get name assignments with
      | Some (_, value) => ret [string_ value]
      | None => do x <- local_var_name definition_location; ret [variable x]
      end
  end.

(** ** What is known of an expression *)

(** [is_record_literal], ast/typed.rs, 1172-1204. *)
Fixpoint is_record_literal (e : expr) : bool :=
  match e with
  | Call fun_ _ => is_record_literal fun_
  | Var _ (Record_ _ _) => true
  | _ => false
  end.
(** Whether [called_function_purity], ast/typed.rs, 1119-1166, is pure; a constructor is. *)
Definition called_function_is_pure (e : expr) : bool :=
  match e with
  | Var _ (Record_ _ _) => true
  | Var _ (ModuleFn _ _ _ _ pure) => pure
  | Var _ (LocalVariable _) => false
  | Fn _ _ pure => pure
  | _ => false
  end.

(** [is_pure_value_constructor], ast/typed.rs, 1026-1105. *)
Fixpoint is_pure_value_constructor (e : expr) : bool :=
  match e with
  | Int _ | String_ _ | List_ _ _ | Tuple _ | Var _ _ | BinOp _ _ _ | RecordAccess _ _
  | TupleIndex _ _ | RecordUpdate _ _ _ _ _ | Fn _ _ _ => true
  | NegateBool value | NegateInt value => is_pure_value_constructor value
  | Pipeline assignments finally =>
      forallb (fun '(_, value) => is_pure_value_constructor value) assignments &&
      is_pure_value_constructor finally
  | Call fun_ arguments => 
      (is_record_literal fun_ || called_function_is_pure fun_) &&
      forallb is_pure_value_constructor arguments
  | Block statements => forallb is_pure_statement statements
  | Case subjects clauses =>
      forallb is_pure_value_constructor subjects &&
      forallb (fun '(_, _, _, then_) => is_pure_value_constructor then_) clauses
  | Failure _ _ _ => false
  end
(** [Statement::is_pure_value_constructor] *)
with is_pure_statement (s : stmt) : bool :=
  match s with
  | Expression_ e => is_pure_value_constructor e
  | Let _ value => is_pure_value_constructor value
  | LetAssert_ _ _ _ _ _ => false
  end.

(** [is_zero_compile_time_number] and [is_non_zero_compile_time_number], ast/typed.rs, 695-751. *)
Definition is_non_zero_compile_time_number (e : expr) : bool :=
  match e with Int value => negb (value =? 0)%Z | _ => false end.
Definition is_zero_compile_time_number (e : expr) : bool :=
  match e with Int value => (value =? 0)%Z | _ => false end.

(** [HowToDivide] and [how_to_divide], 3505-3563. *)
Inductive division :=
| PlainErlangDivision | ReplaceWithZero | EvaluateLeftAndReturnZero
| MatchOnRight (is_left_hand_side_pure : bool).
Definition how_to_divide (left right : expr) : division :=
  if is_non_zero_compile_time_number right then PlainErlangDivision
  else if is_pure_value_constructor left then
    if is_zero_compile_time_number right then ReplaceWithZero else MatchOnRight true
  else if is_zero_compile_time_number right then EvaluateLeftAndReturnZero
  else MatchOnRight false.

(** [produces_literal_string], 3637-3677. *)
Definition produces_literal_string (e : expr) : bool :=
  match e with String_ _ => true | _ => false end.

(** [needs_begin_end_wrapping], 3784-3842. *)
Definition needs_begin_end_wrapping (e : expr) : bool :=
  match e with
  | RecordUpdate assigned _ _ _ _ => match assigned with Some _ => true | None => false end
  | Pipeline _ _ => true
  | BinOp (DivInt | RemainderInt) lhs rhs =>
      match how_to_divide lhs rhs with
      | MatchOnRight false | EvaluateLeftAndReturnZero => true
      | PlainErlangDivision | ReplaceWithZero | MatchOnRight true => false
      end
  | _ => false
  end.

(** [FunctionCall] and [how_to_call], 76-97 and 3382-3503. *)
Inductive function_call :=
| BuildRecord (name : text) | CallFunction (module name : text) | DirectCall.
Definition how_to_call (fun_ : expr) : function_call :=
  match fun_ with
  | Var _ (Record_ name _) => BuildRecord name
  | Var _ (ModuleFn _ _ _ (Some (module, name)) _) => CallFunction module name
  | Var _ (ModuleFn module name _ None _) => CallFunction module name
  | _ => DirectCall
  end.

(** [default_error_message], 52-62. *)
Definition default_error_message (kind : error_kind) : text :=
  match kind with
  | Panic => str "`panic` expression evaluated."
  | LetAssert => str "Pattern match failed, no pattern matched the value."
  | Todo => str "`todo` expression evaluated. This code has not yet been implemented."
  end.
Definition error_kind_name (kind : error_kind) : text :=
  match kind with Todo => str "todo" | Panic => str "panic" | LetAssert => str "let_assert" end.

(** The operators written as such, 2748-2760. *)
Definition plain_operator (operator : binop) : option text :=
  match operator with
  | And => Some (str "andalso")
  | Or => Some (str "orelse")
  | LtInt => Some (str "<")
  | LtEqInt => Some (str "=<")
  | Eq_ => Some (str "=:=")
  | NotEq => Some (str "/=")
  | GtInt => Some (str ">")
  | GtEqInt => Some (str ">=")
  | AddInt => Some (str "+")
  | SubInt => Some (str "-")
  | MultInt => Some (str "*")
  | DivInt | RemainderInt | Concatenate => None
  end.

(** [function_arguments_names], 729-770, of a function that is not external. *)
Fixpoint function_arguments_names (arguments : list arg_names) : M (list text) :=
  match arguments with
  | [] => ret []
  | ArgDiscard _ :: arguments =>
      do rest <- function_arguments_names arguments; ret (str "_" :: rest)
  | ArgNamed name location :: arguments =>
      do x <- new_erlang_variable name location;
      do rest <- function_arguments_names arguments; ret (x :: rest)
  end.

(** The generated variables of [record_builder_anonymous_function], 3274-3276. *)
Fixpoint generated (n : nat) : M (list text) :=
  match n with
  | O => ret []
  | S n => do x <- new_generated_variable; do rest <- generated n; ret (x :: rest)
  end.
(** [record_builder_anonymous_function], 3268-3299. *)
Definition record_builder_anonymous_function (record_name : text) (arguments : nat) : M (list call) :=
  do xs <- generated arguments;
  ret ([start_anonymous_function xs] ++
       match xs with
       | [] => [atom (to_snake_case record_name)]
       | _ => [start_tuple; atom (to_snake_case record_name)] ++ map variable xs ++ [end_tuple]
       end ++ [end_function]).

Section Generator.
Context (c : context).

(** [var], 2031-2112. *)
Definition var (name : text) (constructor : variant) : M (list call) :=
  match constructor with
  | Record_ record_name None => ret [atom (to_snake_case record_name)]
  | Record_ record_name (Some arguments) => record_builder_anonymous_function record_name arguments
  | LocalVariable location => do x <- local_var_name location; ret [variable x]
  | ModuleFn _ _ arity (Some (module, name)) _ =>
      ret [function_reference
             (if text_eqb module (module_name c) then None else Some (erlang_module_name module))
             (escape_erlang_existing_name name) arity]
  | ModuleFn module name' arity None _ =>
      ret [if text_eqb module (module_name c)
           then function_reference None (escape_erlang_existing_name name) arity
           else function_reference (Some (erlang_module_name module))
                  (escape_erlang_existing_name name') arity]
  end.

Section Open.
(** [expression] below *)
Context (expression : expr -> M (list call)).

(** [maybe_block_expr], 1246-1258. *)
Definition maybe_block_expr (e : expr) : M (list call) :=
  do inner <- expression e;
  ret (if needs_begin_end_wrapping e then [start_block] ++ inner ++ [end_block] else inner).

(** [let_], 1260-1270. *)
Definition let_ (value : expr) (p : pattern) : M (list call) :=
  do p <- pattern_ p [];
  do v <- maybe_block_expr value;
  ret ([match_operator] ++ fst p ++ v).

(** [start_runtime_error], 1176-1235, up to the fields that are not always there. *)
Definition start_runtime_error (kind : error_kind) (location : span) (message : option expr)
    : M (list call) :=
  do m <- match message with
          | Some message => maybe_block_expr message
          | None => ret [string_ (default_error_message kind)]
          end;
  ret ([start_remote_call (str "erlang") (str "error"); start_map;
        map_field; atom (str "gleam_error"); atom (error_kind_name kind);
        map_field; atom (str "message")] ++ m ++
       [map_field; atom (str "file"); string_ (module_source_path c);
        map_field; atom (str "module"); string_ (module_name c);
        map_field; atom (str "function"); string_ (function_name c);
        map_field; atom (str "line"); int (Z.of_N (line_number c (fst location)))]).
(** [end_runtime_error], 1237-1244. *)
Definition end_runtime_error : list call := [end_map; end_call].

(** The catch-all branch of [let_assert], 1342-1381. *)
Definition let_assert_failure (p : pattern) (value_end : N) (message : option expr)
    (location : span) : M (list call) :=
  do x <- new_generated_variable;
  do error <- start_runtime_error LetAssert location message;
  ret ([start_case_clause; variable_pattern x; end_clause_pattern; end_clause_guards] ++ error ++
       [map_field; atom (str "value"); variable x;
        map_field; atom (str "start"); int (Z.of_N (fst location));
        map_field; atom (str "end"); int (Z.of_N value_end);
        map_field; atom (str "pattern_start"); int (Z.of_N (fst (pattern_location p)));
        map_field; atom (str "pattern_end"); int (Z.of_N (snd (pattern_location p)))] ++
       end_runtime_error ++ [end_clause_body]).

(** [statement_sequence], 772-832, with [let_assert], 1272-1384. *)
Fixpoint statement_sequence (l : list stmt) : M (list call) :=
  match l with
  | [] => ret []
  | Expression_ e :: l =>
      do first <- expression e; do rest <- statement_sequence l; ret (first ++ rest)
  | Let p value :: l =>
      do first <- let_ value p; do rest <- statement_sequence l; ret (first ++ rest)
  | LetAssert_ p value value_end message location :: l =>
      if always_matches p then
        do first <- let_ value p; do rest <- statement_sequence l; ret (first ++ rest)
      else
        do subject <- maybe_block_expr value;
        do clause <-
          match l with
          | _ :: _ =>
              do pat <- pattern_ p [];
              do assignments <- pattern_assignments (snd pat);
              do body <- statement_sequence l;
              ret ([start_case_clause] ++ fst pat ++ [end_clause_pattern; end_clause_guards] ++
                   assignments ++ body ++ [end_clause_body])
          | [] =>
              do x <- new_generated_variable;
              do pat <- pattern_ p [];
              ret ([start_case_clause; match_pattern] ++ fst pat ++
                   [variable_pattern x; end_clause_pattern; end_clause_guards; variable x;
                    end_clause_body])
          end;
        do failure <- let_assert_failure p value_end message location;
        ret ([start_case] ++ subject ++ [end_case_subject] ++ clause ++ failure ++ [end_case])
  end.

(** [tuple_index], 2017-2028. *)
Definition tuple_index (tuple : expr) (index : N) : M (list call) :=
  do inner <- maybe_block_expr tuple;
  ret ([start_remote_call (str "erlang") (str "element"); int (Z.of_N (index + 1))] ++ inner ++
       [end_call]).

(** [call], 2114-2163, and [build_record], 2232-2252. *)
Definition call_ (fun_ : expr) (arguments : list expr) : M (list call) :=
  match how_to_call fun_ with
  | BuildRecord name =>
      match arguments with
      | [] => ret [atom (to_snake_case name)]
      | _ =>
          do inner <- concat_map maybe_block_expr arguments;
          ret ([start_tuple; atom (to_snake_case name)] ++ inner ++ [end_tuple])
      end
  | CallFunction module name =>
      do inner <- concat_map maybe_block_expr arguments;
      ret ((if text_eqb module (module_name c)
            then [start_call; atom (escape_erlang_existing_name name); end_called_expression]
            else [start_remote_call (erlang_module_name module) (escape_erlang_existing_name name)]) ++
           inner ++ [end_call])
  | DirectCall =>
      do f <- maybe_block_expr fun_;
      do inner <- concat_map maybe_block_expr arguments;
      ret ([start_call] ++ f ++ [end_called_expression] ++ inner ++ [end_call])
  end.

(** [string_concatenate] and [string_concatenate_argument], 2714-2749. *)
Definition string_concatenate_argument (value : expr) : M (list call) :=
  do inner <- maybe_block_expr value;
  ret ([bit_array_segment] ++ inner ++
       [bit_array_segment_default_size;
        bit_array_segment_specifiers (if produces_literal_string value then [Utf8] else [Binary])]).
Definition string_concatenate (lhs rhs : expr) : M (list call) :=
  do l <- string_concatenate_argument lhs;
  do r <- string_concatenate_argument rhs;
  ret ([start_bit_array] ++ l ++ r ++ [end_bit_array]).

(** [int_division], 2877-2961. *)
Definition int_division (lhs rhs : expr) (op : text) : M (list call) :=
  let zero_or denominator quotient :=
    [end_case_subject;
     start_case_clause; int_pattern 0; end_clause_pattern; end_clause_guards; int 0; end_clause_body;
     start_case_clause; variable_pattern denominator; end_clause_pattern; end_clause_guards;
     binary_operator op] ++ quotient ++ [variable denominator; end_clause_body; end_case] in
  match how_to_divide lhs rhs with
  | ReplaceWithZero => ret [int 0]
  | EvaluateLeftAndReturnZero => do l <- maybe_block_expr lhs; ret (l ++ [int 0])
  | PlainErlangDivision =>
      do l <- maybe_block_expr lhs;
      do r <- maybe_block_expr rhs;
      ret ([binary_operator op] ++ l ++ r)
  | MatchOnRight true =>
      do r <- maybe_block_expr rhs;
      do denominator <- new_generated_variable;
      do l <- maybe_block_expr lhs;
      ret ([start_case] ++ r ++ zero_or denominator l)
  | MatchOnRight false =>
      do left_name <- new_generated_variable;
      do l <- maybe_block_expr lhs;
      do r <- maybe_block_expr rhs;
      do denominator <- new_generated_variable;
      ret ([match_operator; variable_pattern left_name] ++ l ++ [start_case] ++ r ++
           zero_or denominator [variable left_name])
  end.

(** [binary_operator], 2751-2799. *)
Definition binary_operator_ (operator : binop) (lhs rhs : expr) : M (list call) :=
  match operator, plain_operator operator with
  | DivInt, _ => int_division lhs rhs (str "div")
  | RemainderInt, _ => int_division lhs rhs (str "rem")
  | _, Some operator =>
      do l <- maybe_block_expr lhs;
      do r <- maybe_block_expr rhs;
      ret ([binary_operator operator] ++ l ++ r)
  | _, None => string_concatenate lhs rhs
  end.

(** [pipeline], 1386-1453. *)
Definition pipeline (assignments : list (text * span * expr)) (finally : expr) : M (list call) :=
  do steps <- concat_map (fun '(name, location, value) =>
    do x <- new_erlang_variable name location;
    do v <- maybe_block_expr value;
    ret ([match_operator; variable_pattern x] ++ v)) assignments;
  do last <- expression finally;
  ret (steps ++ last).

(** [clause_branch], 2326-2378. *)
Definition clause_branch (patterns : list pattern) (g : option guard) (then_ : expr)
    : M (list call) :=
  do pat <- clause_patterns patterns;
  do guard <- match g with
              | Some g =>
                  do inner <- clause_guard g (snd pat);
                  ret ([start_clause_guard] ++ inner ++ [end_clause_guard])
              | None => ret []
              end;
  do assignments <- pattern_assignments (snd pat);
  do body <- match then_ with
             | Block statements => statement_sequence statements
             | _ => expression then_
             end;
  ret ([start_case_clause] ++ fst pat ++ [end_clause_pattern] ++ guard ++ [end_clause_guards] ++
       assignments ++ body ++ [end_clause_body]).

(** [case], 2254-2322. *)
Definition case (subjects : list expr)
    (clauses : list (list pattern * list (list pattern) * option guard * expr)) : M (list call) :=
  do subject <- match subjects with
                | [subject] => maybe_block_expr subject
                | _ =>
                    do inner <- concat_map maybe_block_expr subjects;
                    ret ([start_tuple] ++ inner ++ [end_tuple])
                end;
  do branches <- concat_map (fun '(patterns, alternative_patterns, g, then_) =>
    do taken_names_before_clause <- current_names;
    do first <- clause_branch patterns g then_;
    do rest <- concat_map (fun patterns =>
      do _ <- set_names taken_names_before_clause;
      clause_branch patterns g then_) alternative_patterns;
    ret (first ++ rest)) clauses;
  ret ([start_case] ++ subject ++ [end_case_subject] ++ branches ++ [end_case]).

(** The body of [expression]. *)
Definition expression_ (e : expr) : M (list call) :=
  match e with
  | Int value => ret [int value]
  | String_ value => ret [string_ value]
  | Var name constructor => var name constructor
  | Block [Expression_ e] => maybe_block_expr e
  | Block statements =>
      do inner <- statement_sequence statements; ret ([start_block] ++ inner ++ [end_block])
  | NegateBool value =>
      do inner <- maybe_block_expr value; ret ([unary_operator (str "not")] ++ inner)
  | NegateInt value =>
      do inner <- maybe_block_expr value; ret ([unary_operator (str "-")] ++ inner)
  | BinOp operator lhs rhs => binary_operator_ operator lhs rhs
  | List_ elements tail =>
      do inner <- concat_map (fun e => do inner <- maybe_block_expr e; ret ([cons_list] ++ inner))
                    elements;
      do rest <- match tail with Some e => maybe_block_expr e | None => ret [empty_list] end;
      ret (inner ++ rest)
  | Tuple elements =>
      do inner <- concat_map maybe_block_expr elements; ret ([start_tuple] ++ inner ++ [end_tuple])
  | TupleIndex tuple index => tuple_index tuple index
  | RecordAccess record index => tuple_index record (index + 1)%N
  | RecordUpdate assigned updated_record updated_record_location constructor arguments =>
      do first <- match assigned with
                  | Some name =>
                      do x <- new_erlang_variable name updated_record_location;
                      do v <- maybe_block_expr updated_record;
                      ret ([match_operator; variable_pattern x] ++ v)
                  | None => ret []
                  end;
      do rest <- call_ constructor arguments;
      ret (first ++ rest)
  | Fn arguments body _ =>
      do outer_scope <- current_names;
      do xs <- function_arguments_names arguments;
      do inner <- statement_sequence body;
      do _ <- set_names outer_scope;
      ret ([start_anonymous_function xs] ++ inner ++ [end_function])
  | Call fun_ arguments => call_ fun_ arguments
  | Pipeline assignments finally => pipeline assignments finally
  | Failure kind location message =>
      do error <- start_runtime_error kind location message; ret (error ++ end_runtime_error)
  | Case subjects clauses => case subjects clauses
  end.
End Open.

(** [expression], 834-1131. *)
Fixpoint expression (e : expr) : M (list call) := expression_ expression e.
End Generator.

(** The function of a module that is not external, and its code in [module_function], 632-642. *)
Record function := Function {
  f_name : text; f_arguments : list arg_names; f_body : list stmt }.
Definition module_function (module source_path : text) (lines : N -> N) (f : function)
    : option (list call) :=
  let c := Context module source_path (f_name f) lines in
  let code :=
    do xs <- function_arguments_names (f_arguments f);
    do body <- statement_sequence c (expression c) (f_body f);
    ret ([start_function (escape_erlang_existing_name (f_name f)) (N.of_nat (length (f_arguments f))) xs] ++
         body ++ [end_function]) in
  match code (State [] [] 0) with Some (calls, _) => Some calls | None => None end.
