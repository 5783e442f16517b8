(** The trees whose calls [ErlangCode.expression] makes. *)
From Coq Require Import String NArith ZArith List Bool Lia.
From Verif Require Import Text Strings StringsSpec Erl ErlangSource ErlangSourceSpec ErlangTypes
  ErlangCode ErlangRun ErlangCodeSpec.
Import ListNotations.
Local Open Scope nat_scope.
Local Open Scope list_scope.

Definition map_m {A B} (f : A -> M B) : list A -> M (list B) :=
  fix map_m l :=
    match l with
    | [] => ret []
    | a :: l => do first <- f a; do rest <- map_m l; ret (first :: rest)
    end.
Definition fmap {A B} (k : A -> B) (m : M A) : M B :=
  fun s => match m s with Some (a, s) => Some (k a, s) | None => None end.

(** ** Patterns *)

(** Patterns in a row. *)
Definition in_turn {A B} (one : A -> aliases -> M (B * aliases)) : list A -> aliases -> M (list B * aliases) :=
  fix in_turn l later :=
    match l with
    | [] => ret ([], later)
    | p :: l =>
        do first <- one p later;
        do rest <- in_turn l (snd first);
        ret (fst first :: fst rest, snd rest)
    end.
Definition string_node (w : text) : node := NString w (unescaped w).
Fixpoint t_pattern (p : pattern) (later : aliases) : M (node * aliases) :=
  match p with
  | PDiscard _ => ret (NDiscard, later)
  | PInt _ value => ret (NInt value, later)
  | PString _ value => ret (string_node value, later)
  | PVariable location name => do x <- new_erlang_variable name location; ret (NVar x, later)
  | PAssign location name p =>
      do inner <- t_pattern p later;
      do x <- new_erlang_variable name location;
      ret (NMatch (fst inner) (NVar x), snd inner)
  | PTuple _ elements =>
      do inner <- in_turn t_pattern elements later; ret (NTuple (fst inner), snd inner)
  | PList _ elements tail =>
      do inner <- in_turn t_pattern elements later;
      match tail with
      | Some p =>
          do rest <- t_pattern p (snd inner);
          ret (fold_right NCons (fst rest) (fst inner), snd rest)
      | None => ret (fold_right NCons NNil (fst inner), snd inner)
      end
  | PConstructor _ name arguments =>
      match arguments with
      | [] => ret (NAtom (to_snake_case name), later)
      | _ =>
          do inner <- in_turn t_pattern arguments later;
          ret (NTuple (NAtom (to_snake_case name) :: fst inner), snd inner)
      end
  | PStringPrefix _ prefix alias rest right_location =>
      let later :=
        match alias with
        | Some (name, location) => (name, (location, prefix)) :: later
        | None => later
        end in
      do right <- match rest with
                  | Some name => do x <- new_erlang_variable name right_location; ret (NVar x)
                  | None => ret NDiscard
                  end;
      ret (NBits [(string_node prefix, (None, [Utf8])); (right, (None, [Binary]))], later)
  end.
Definition t_clause_patterns (patterns : list pattern) : M (node * aliases) :=
  match patterns with
  | [p] => t_pattern p []
  | _ => do inner <- in_turn t_pattern patterns []; ret (NTuple (fst inner), snd inner)
  end.
Definition t_assignments (later : aliases) : M (list node) :=
  map_m (fun '(name, (location, value)) =>
    do x <- new_erlang_variable name location; ret (NMatch (NVar x) (string_node value)))
    (sorted_by_name later).

(** ** Guards *)

Definition guard_symbol (operator : binop) : option sym :=
  match operator with
  | Or => Some KOrelse | And => Some KAndalso | Eq_ => Some ExactEq | NotEq => Some ExactNe
  | GtInt => Some Greater | GtEqInt => Some GreaterEq | LtInt => Some Less | LtEqInt => Some LessEq
  | AddInt => Some Plus | SubInt => Some Minus | MultInt => Some Star
  | DivInt => Some KDiv | RemainderInt => Some KRem | Concatenate => None
  end.
Definition element_node (index : N) (n : node) : node :=
  NRemote (str "erlang") (str "element") [NInt (Z.of_N (index + 1)); n].
Fixpoint t_guard (g : guard) (assignments : aliases) : M node :=
  match g with
  | GuardInt value => ret (NInt value)
  | GuardString value => ret (string_node value)
  | GuardRecord name => ret (NAtom (to_snake_case name))
  | GuardBlock g => t_guard g assignments
  | GuardTupleIndex tuple index => do n <- t_guard tuple []; ret (element_node index n)
  | GuardFieldAccess container index =>
      do n <- t_guard container []; ret (element_node (index + 1) n)
  | GuardNot g => do n <- t_guard g assignments; ret (NUnary KNot n)
  | GuardBinaryOperator operator lhs rhs =>
      let specifiers g := if guard_produces_literal_string g then [Utf8] else [Binary] in
      do l <- t_guard lhs assignments;
      do r <- t_guard rhs assignments;
      ret match guard_symbol operator with
          | Some s => NBinary s l r
          | None => NBits [(l, (None, specifiers lhs)); (r, (None, specifiers rhs))]
          end
  | GuardVar name definition_location =>
      match get name assignments with
      | Some (_, value) => ret (string_node value)
      | None => do x <- local_var_name definition_location; ret (NVar x)
      end
  end.

(** ** Expressions *)

Definition plain_symbol (operator : binop) : option sym :=
  match operator with
  | And => Some KAndalso | Or => Some KOrelse | LtInt => Some Less | LtEqInt => Some LessEq
  | Eq_ => Some ExactEq | NotEq => Some LooseNe | GtInt => Some Greater | GtEqInt => Some GreaterEq
  | AddInt => Some Plus | SubInt => Some Minus | MultInt => Some Star
  | DivInt | RemainderInt | Concatenate => None
  end.
Definition single (l : list node) : node := match l with [n] => n | _ => NBlock l end.
Definition t_record_builder (record_name : text) (arguments : nat) : M node :=
  do xs <- generated arguments;
  ret (NFun xs [match xs with
                | [] => NAtom (to_snake_case record_name)
                | _ => NTuple (NAtom (to_snake_case record_name) :: map NVar xs)
                end]).

Section Generator.
Context (c : context).

Definition t_var (name : text) (constructor : variant) : M node :=
  match constructor with
  | Record_ record_name None => ret (NAtom (to_snake_case record_name))
  | Record_ record_name (Some arguments) => t_record_builder record_name arguments
  | LocalVariable location => do x <- local_var_name location; ret (NVar x)
  | ModuleFn _ _ arity (Some (module, name)) _ =>
      ret (NFunRef
             (if text_eqb module (module_name c) then None else Some (erlang_module_name module))
             (escape_erlang_existing_name name) arity)
  | ModuleFn module name' arity None _ =>
      ret (if text_eqb module (module_name c)
           then NFunRef None (escape_erlang_existing_name name) arity
           else NFunRef (Some (erlang_module_name module)) (escape_erlang_existing_name name') arity)
  end.

Section Open.
Context (expression : expr -> M (list node)).

Definition t_maybe (e : expr) : M node :=
  do inner <- expression e; ret (if needs_begin_end_wrapping e then NBlock inner else single inner).
Definition t_let (value : expr) (p : pattern) : M node :=
  do p <- t_pattern p []; do v <- t_maybe value; ret (NMatch (fst p) v).
Definition error_node (kind : error_kind) (location : span) (m : node) (more : list (node * node)) : node :=
  NRemote (str "erlang") (str "error")
    [NMap ([(NAtom (str "gleam_error"), NAtom (error_kind_name kind));
            (NAtom (str "message"), m);
            (NAtom (str "file"), string_node (module_source_path c));
            (NAtom (str "module"), string_node (module_name c));
            (NAtom (str "function"), string_node (function_name c));
            (NAtom (str "line"), NInt (Z.of_N (line_number c (fst location))))] ++ more)].
Definition t_message (kind : error_kind) (message : option expr) : M node :=
  match message with
  | Some message => t_maybe message
  | None => ret (string_node (default_error_message kind))
  end.
Definition failure_clause (p : pattern) (value_end : N) (location : span) (x : text) (m : node)
    : node * (option node * list node) :=
  (NVar x, (None, [error_node LetAssert location m
    [(NAtom (str "value"), NVar x);
     (NAtom (str "start"), NInt (Z.of_N (fst location)));
     (NAtom (str "end"), NInt (Z.of_N value_end));
     (NAtom (str "pattern_start"), NInt (Z.of_N (fst (pattern_location p))));
     (NAtom (str "pattern_end"), NInt (Z.of_N (snd (pattern_location p))))]])).
Fixpoint t_body (l : list stmt) : M (list node) :=
  match l with
  | [] => ret []
  | Expression_ e :: l =>
      do first <- expression e; do rest <- t_body l; ret (first ++ rest)
  | Let p value :: l =>
      do first <- t_let value p; do rest <- t_body l; ret (first :: rest)
  | LetAssert_ p value value_end message location :: l =>
      if always_matches p then
        do first <- t_let value p; do rest <- t_body l; ret (first :: rest)
      else
        do subject <- t_maybe value;
        do clause <-
          match l with
          | _ :: _ =>
              do pat <- t_pattern p [];
              do assignments <- t_assignments (snd pat);
              do body <- t_body l;
              ret (fst pat, (None, assignments ++ body))
          | [] =>
              do x <- new_generated_variable;
              do pat <- t_pattern p [];
              ret (NMatch (fst pat) (NVar x), (None, [NVar x]))
          end;
        do x <- new_generated_variable;
        do m <- t_message LetAssert message;
        ret [NCase subject [clause; failure_clause p value_end location x m]]
  end.

Definition t_call (fun_ : expr) (arguments : list expr) : M node :=
  match how_to_call fun_ with
  | BuildRecord name =>
      match arguments with
      | [] => ret (NAtom (to_snake_case name))
      | _ =>
          do inner <- map_m t_maybe arguments; ret (NTuple (NAtom (to_snake_case name) :: inner))
      end
  | CallFunction module name =>
      do inner <- map_m t_maybe arguments;
      ret (if text_eqb module (module_name c)
           then NCall (NAtom (escape_erlang_existing_name name)) inner
           else NRemote (erlang_module_name module) (escape_erlang_existing_name name) inner)
  | DirectCall =>
      do f <- t_maybe fun_;
      do inner <- map_m t_maybe arguments;
      ret (NCall f inner)
  end.
Definition literal_specifier (e : expr) : list specifier :=
  if produces_literal_string e then [Utf8] else [Binary].
Definition zero_or (op : sym) (denominator : text) (quotient : node) :=
  [(NInt 0, (@None node, [NInt 0]));
   (NVar denominator, (None, [NBinary op quotient (NVar denominator)]))].
Definition t_division (lhs rhs : expr) (op : sym) : M (list node) :=
  match how_to_divide lhs rhs with
  | ReplaceWithZero => ret [NInt 0]
  | EvaluateLeftAndReturnZero => do l <- t_maybe lhs; ret [l; NInt 0]
  | PlainErlangDivision =>
      do l <- t_maybe lhs; do r <- t_maybe rhs; ret [NBinary op l r]
  | MatchOnRight true =>
      do r <- t_maybe rhs;
      do denominator <- new_generated_variable;
      do l <- t_maybe lhs;
      ret [NCase r (zero_or op denominator l)]
  | MatchOnRight false =>
      do left_name <- new_generated_variable;
      do l <- t_maybe lhs;
      do r <- t_maybe rhs;
      do denominator <- new_generated_variable;
      ret [NMatch (NVar left_name) l; NCase r (zero_or op denominator (NVar left_name))]
  end.
Definition t_operator (operator : binop) (lhs rhs : expr) : M (list node) :=
  match operator, plain_symbol operator with
  | DivInt, _ => t_division lhs rhs KDiv
  | RemainderInt, _ => t_division lhs rhs KRem
  | _, Some s => do l <- t_maybe lhs; do r <- t_maybe rhs; ret [NBinary s l r]
  | _, None =>
      do l <- t_maybe lhs;
      do r <- t_maybe rhs;
      ret [NBits [(l, (None, literal_specifier lhs)); (r, (None, literal_specifier rhs))]]
  end.
Definition t_bind (name : text) (location : span) (value : expr) : M node :=
  do x <- new_erlang_variable name location; do v <- t_maybe value; ret (NMatch (NVar x) v).
Definition t_branch (patterns : list pattern) (g : option guard) (then_ : expr)
    : M (node * (option node * list node)) :=
  do pat <- t_clause_patterns patterns;
  do guard <- match g with
              | Some g => do n <- t_guard g (snd pat); ret (Some n)
              | None => ret None
              end;
  do assignments <- t_assignments (snd pat);
  do body <- match then_ with
             | Block statements => t_body statements
             | _ => expression then_
             end;
  ret (fst pat, (guard, assignments ++ body)).
Definition t_clause (clause : list pattern * list (list pattern) * option guard * expr)
    : M (list (node * (option node * list node))) :=
  let '(patterns, alternatives, g, then_) := clause in
  do before <- current_names;
  do first <- t_branch patterns g then_;
  do rest <- map_m (fun patterns => do _ <- set_names before; t_branch patterns g then_) alternatives;
  ret (first :: rest).
Definition t_case (subjects : list expr)
    (clauses : list (list pattern * list (list pattern) * option guard * expr)) : M node :=
  do subject <- match subjects with
                | [subject] => t_maybe subject
                | _ => do inner <- map_m t_maybe subjects; ret (NTuple inner)
                end;
  do branches <- map_m t_clause clauses;
  ret (NCase subject (concat branches)).

Definition t_expression_ (e : expr) : M (list node) :=
  match e with
  | Int value => ret [NInt value]
  | String_ value => ret [string_node value]
  | Var name constructor => do n <- t_var name constructor; ret [n]
  | Block [Expression_ e] => do n <- t_maybe e; ret [n]
  | Block statements => do inner <- t_body statements; ret [NBlock inner]
  | NegateBool value => do n <- t_maybe value; ret [NUnary KNot n]
  | NegateInt value => do n <- t_maybe value; ret [NUnary Minus n]
  | BinOp operator lhs rhs => t_operator operator lhs rhs
  | List_ elements tail =>
      do inner <- map_m t_maybe elements;
      do rest <- match tail with Some e => t_maybe e | None => ret NNil end;
      ret [fold_right NCons rest inner]
  | Tuple elements => do inner <- map_m t_maybe elements; ret [NTuple inner]
  | TupleIndex tuple index => do n <- t_maybe tuple; ret [element_node index n]
  | RecordAccess record index => do n <- t_maybe record; ret [element_node (index + 1) n]
  | RecordUpdate (Some name) updated_record updated_record_location constructor arguments =>
      do first <- t_bind name updated_record_location updated_record;
      do rest <- t_call constructor arguments;
      ret [first; rest]
  | RecordUpdate None _ _ constructor arguments =>
      do rest <- t_call constructor arguments; ret [rest]
  | Fn arguments body _ =>
      do outer_scope <- current_names;
      do xs <- function_arguments_names arguments;
      do inner <- t_body body;
      do _ <- set_names outer_scope;
      ret [NFun xs inner]
  | Call fun_ arguments => do n <- t_call fun_ arguments; ret [n]
  | Pipeline assignments finally =>
      do steps <- map_m (fun '(name, location, value) => t_bind name location value) assignments;
      do last <- expression finally;
      ret (steps ++ last)
  | Failure kind location message =>
      do m <- t_message kind message; ret [error_node kind location m []]
  | Case subjects clauses => do n <- t_case subjects clauses; ret [n]
  end.
End Open.
Fixpoint t_expression (e : expr) : M (list node) := t_expression_ t_expression e.
End Generator.

Definition t_function (module source_path : text) (lines : N -> N) (f : function) : option top :=
  let c := Context module source_path (f_name f) lines in
  let code :=
    do xs <- function_arguments_names (f_arguments f);
    do body <- t_body c (t_expression c) (f_body f);
    ret (Function_ (escape_erlang_existing_name (f_name f)) xs body) in
  match code (State [] [] 0) with Some (f, _) => Some f | None => None end.
