(** Parsing of binary operators: compiler-core/src/parse.rs, parse/token.rs, ast.rs.

    Tokens that do not matter for operators are numbered.  The parser's [token0], [token1] and
    token iterator are the list of the tokens to come.  The parser of operands is a parameter: a
    function from the tokens to come to an operand and the tokens after it, to nothing (no operand
    starts here, nothing is consumed) or to an error. *)
From Coq Require Import NArith Bool List.
From Verif Require Import Text.
Import ListNotations.
Local Open Scope N_scope.

(** [Token], parse/token.rs 8-112, and [Spanned], parse/lexer.rs. *)
Inductive token :=
  | VbarVbar | AmperAmper | EqualEqual | NotEqual
  | Less | LessEqual | Greater | GreaterEqual | LessDot | LessEqualDot | GreaterDot | GreaterEqualDot
  | Plus | Minus | PlusDot | MinusDot | Percent | Star | StarDot | Slash | SlashDot
  | Concatenate | Pipe
  | LeftBrace | RightBrace | Bang | Equal
  | Operand (n : N)   (* a token that is an operand by itself *)
  | Other (n : N).
Record span := Span { s_start : N; s_end : N }.
Notation spanned := (N * token * N)%type.
Definition the_token (s : spanned) : token := snd (fst s).
Definition the_start (s : spanned) : N := fst (fst s).

(** [BinOp], ast.rs 1364-1396, and [IntOperator], 2924-2931. *)
Inductive binop :=
  | And | Or | Eq | NotEq
  | LtInt | LtEqInt | LtFloat | LtEqFloat | GtEqInt | GtInt | GtEqFloat | GtFloat
  | AddInt | AddFloat | SubInt | SubFloat | MultInt | MultFloat | DivInt | DivFloat | RemainderInt
  | Concat.
(** [BinOp::precedence], ast.rs 1412-1441. *)
Definition binop_precedence (o : binop) : N :=
  match o with
  | Or => 1
  | And => 2
  | Eq | NotEq => 3
  | LtInt | LtEqInt | LtFloat | LtEqFloat | GtEqInt | GtInt | GtEqFloat | GtFloat => 4
  | Concat => 5
  | AddInt | AddFloat | SubInt | SubFloat => 7
  | MultInt | MultFloat | DivInt | DivFloat | RemainderInt => 8
  end.
(** [token_to_binop], parse.rs 4959-5033. *)
Definition token_to_binop (t : token) : option binop :=
  match t with
  | VbarVbar => Some Or
  | AmperAmper => Some And
  | EqualEqual => Some Eq
  | NotEqual => Some NotEq
  | Less => Some LtInt
  | LessEqual => Some LtEqInt
  | Greater => Some GtInt
  | GreaterEqual => Some GtEqInt
  | LessDot => Some LtFloat
  | LessEqualDot => Some LtEqFloat
  | GreaterDot => Some GtFloat
  | GreaterEqualDot => Some GtEqFloat
  | Plus => Some AddInt
  | Minus => Some SubInt
  | PlusDot => Some AddFloat
  | MinusDot => Some SubFloat
  | Percent => Some RemainderInt
  | Star => Some MultInt
  | StarDot => Some MultFloat
  | Slash => Some DivInt
  | SlashDot => Some DivFloat
  | Concatenate => Some Concat
  | Pipe | LeftBrace | RightBrace | Bang | Equal | Operand _ | Other _ => None
  end.
(** [precedence], parse.rs 4952-4957. *)
Definition precedence (t : token) : option N :=
  match t with
  | Pipe => Some 6
  | _ => option_map binop_precedence (token_to_binop t)
  end.
(** [Token::guard_precedence], parse/token.rs 114-135. *)
Definition guard_precedence (t : token) : option N :=
  match t with
  | VbarVbar => Some 1
  | AmperAmper => Some 2
  | EqualEqual | NotEqual => Some 3
  | Less | LessEqual | LessDot | LessEqualDot | GreaterEqual | Greater | GreaterEqualDot | GreaterDot => Some 4
  | Concatenate => Some 5
  | Plus | PlusDot | Minus | MinusDot => Some 6
  | Star | StarDot | Slash | SlashDot | Percent => Some 7
  | Pipe | LeftBrace | RightBrace | Bang | Equal | Operand _ | Other _ => None
  end.
(** [IntOperator] and its [precedence], ast.rs 2924-2941; [token_to_bit_array_size_operator],
    parse.rs 5035-5041. *)
Inductive int_operator := Add | Subtract | Multiply | Divide | Remainder.
Definition int_operator_precedence (o : int_operator) : N :=
  match o with
  | Add | Subtract => 7
  | Multiply | Divide | Remainder => 8
  end.
Definition token_to_bit_array_size_operator (t : token) : option int_operator :=
  match t with
  | Plus => Some Add
  | Minus => Some Subtract
  | Star => Some Multiply
  | Slash => Some Divide
  | Percent => Some Remainder
  | _ => None
  end.
Definition size_precedence (t : token) : option N :=
  option_map int_operator_precedence (token_to_bit_array_size_operator t).

(** [Result], with panics and a loop that did not end made visible.  [OperandError] is an error of
    the operand parser. *)
Inductive parse_error :=
  | OpNakedRight (location : span)
  | UnexpectedPipe (location : span)
  | NoLetBinding (location : span)
  | ExpectedExpr (location : span)
  | OperandError (n : N) (location : span).
Inductive result (A : Type) := Ok (a : A) | Err (e : parse_error) | Panic | OutOfFuel.
Arguments Ok {A}. Arguments Err {A}. Arguments Panic {A}. Arguments OutOfFuel {A}.

Section Parser.
(** [A]: what is parsed; [C]: the context an operand is parsed in. *)
Context {A C : Type} (unit_ : C -> list spanned -> result (option (A * list spanned)))
  (check : A -> list spanned -> option parse_error)
  (prec : token -> option N) (reject : spanned -> option parse_error) (context : token -> C)
  (reduce : spanned -> A -> A -> result A).

(** [do_reduce_expression], [do_reduce_clause_guard], [do_reduce_constant] and
    [reduce_bit_array_size], parse.rs 5120-5172.  The stacks have their top first. *)
Definition do_reduce (operator : spanned) (estack : list A) : result (list A) :=
  match estack with
  | on_right :: on_left :: estack =>
      match reduce operator on_left on_right with
      | Ok e => Ok (e :: estack)
      | Err e => Err e
      | Panic => Panic
      | OutOfFuel => OutOfFuel
      end
  | _ => Panic
  end.

(** [handle_operator], parse.rs 4904-4950. *)
Fixpoint handle_operator (next : option (spanned * N)) (opstack : list (spanned * N)) (estack : list A)
  : result (option A * list (spanned * N) * list A) :=
  match opstack with
  | [] =>
      match next with
      | None =>
          match estack with
          | [] => Ok (None, [], [])
          | [fin] => Ok (Some fin, [], [])
          | _ => Panic
          end
      | Some operator => Ok (None, [operator], estack)
      end
  | (left_operator, left_precedence) :: opstack' =>
      match next with
      | None =>
          match do_reduce left_operator estack with
          | Ok estack => handle_operator None opstack' estack
          | Err e => Err e
          | Panic => Panic
          | OutOfFuel => OutOfFuel
          end
      | Some (right_operator, right_precedence) =>
          if right_precedence <=? left_precedence then
            match do_reduce left_operator estack with
            | Ok estack => handle_operator next opstack' estack
            | Err e => Err e
            | Panic => Panic
            | OutOfFuel => OutOfFuel
            end
          else Ok (None, (right_operator, right_precedence) :: opstack, estack)
      end
  end.

(** The loops of [parse_expression_inner] 423-491, [parse_clause_guard_inner] 1797-1849,
    [parse_const_value] 3383-3441 and [expect_bit_array_size] 4091-4122. *)
Fixpoint parse_operators (fuel : nat) (c : C) (last : span) (opstack : list (spanned * N)) (estack : list A)
  (tokens : list spanned) : result (option A * list spanned) :=
  match fuel with
  | O => OutOfFuel
  | S fuel =>
      match unit_ c tokens with
      | Ok (Some (unit, tokens)) =>
          match check unit tokens with
          | Some e => Err e
          | None =>
              let estack := unit :: estack in
              let finish :=
                match handle_operator None opstack estack with
                | Ok (e, _, _) => Ok (e, tokens)
                | Err e => Err e
                | Panic => Panic
                | OutOfFuel => OutOfFuel
                end in
              match tokens with
              | [] => finish
              | (start, t, end_) :: tokens' =>
                  match prec t with
                  | None => finish
                  | Some p =>
                      match reject (start, t, end_) with
                      | Some e => Err e
                      | None =>
                          match handle_operator (Some ((start, t, end_), p)) opstack estack with
                          | Ok (_, opstack, estack) =>
                              parse_operators fuel (context t) (Span start end_) opstack estack tokens'
                          | Err e => Err e
                          | Panic => Panic
                          | OutOfFuel => OutOfFuel
                          end
                      end
                  end
              end
          end
      | Ok None =>
          match estack with
          | [] => Ok (None, tokens)
          | _ => Err (OpNakedRight last)
          end
      | Err e => Err e
      | Panic => Panic
      | OutOfFuel => OutOfFuel
      end
  end.
Definition parse (c : C) (tokens : list spanned) : result (option A * list spanned) :=
  parse_operators (S (length tokens)) c (Span 0 0) [] [] tokens.
End Parser.

(** ** Expressions *)
(** [UntypedExpr], ast/untyped.rs; what is not an operator is a numbered unit, or a negation or a
    block of one expression. *)
Inductive expr :=
  | EUnit (location : span) (n : N)
  | EList (location : span) (n : N)
  | ENegateInt (location : span) (value : expr)
  | ENegateBool (location : span) (value : expr)
  | EBlock (location : span) (value : expr)
  | EBinOp (location : span) (operator : binop) (operator_start : N) (left right : expr)
  | EPipeline (first : expr) (others : list expr).
(** [UntypedExpr::location], ast/untyped.rs 160-186; [SrcSpan::merge], src-span. *)
Fixpoint location (e : expr) : span :=
  match e with
  | EUnit l _ | EList l _ | ENegateInt l _ | ENegateBool l _ | EBlock l _ | EBinOp l _ _ _ _ => l
  | EPipeline e es =>
      let first := location e in
      let last := List.last (map location es) first in
      Span (N.min (s_start first) (s_start last)) (N.max (s_end first) (s_end last))
  end.
(** [expression_operator_reduction], parse.rs 5174-5206. *)
Definition expression_operator_reduction (operator : spanned) (left right : expr) : result expr :=
  match the_token operator with
  | Pipe =>
      Ok (match left with
          | EPipeline e es => EPipeline e (es ++ [right])
          | _ => EPipeline left [right]
          end)
  | t =>
      match token_to_binop t with
      | Some o => Ok (EBinOp (Span (s_start (location left)) (s_end (location right))) o (the_start operator) left right)
      | None => Panic
      end
  end.
(** [ExpressionUnitContext], parse.rs 465-469. *)
Inductive unit_context := FollowingPipe | OtherContext.
Definition unit_context_after (t : token) : unit_context :=
  match t with Pipe => FollowingPipe | _ => OtherContext end.
(** [post_process_expression_unit], parse.rs 493-507. *)
Definition post_process_expression_unit (is_let_binding : bool) (unit : expr) (tokens : list spanned) : option parse_error :=
  match is_let_binding, unit, tokens with
  | false, EList _ _, (start, Equal, end_) :: _ => Some (NoLetBinding (Span start end_))
  | _, _, _ => None
  end.
Definition parse_expression_inner (unit_ : unit_context -> list spanned -> result (option (expr * list spanned)))
  (is_let_binding : bool) : list spanned -> result (option expr * list spanned) :=
  parse unit_ (post_process_expression_unit is_let_binding) precedence (fun _ => None) unit_context_after
    expression_operator_reduction OtherContext.

(** ** Guards, constants and sizes: one type, they differ only in their operators *)
Inductive operation (O : Type) :=
  | Unit (location : span) (n : N)
  | BinaryOperator (location : span) (operator : O) (operator_start : N) (left right : operation O).
Arguments Unit {O}. Arguments BinaryOperator {O}.
Definition operation_location {O} (e : operation O) : span :=
  match e with Unit l _ | BinaryOperator l _ _ _ _ => l end.
(** [clause_guard_reduction] 5208-5227, [constant_binop_reduction] 5229-5249. *)
Definition operation_reduction {O} (find : token -> option O) (operator : spanned) (left right : operation O) : result (operation O) :=
  match find (the_token operator) with
  | Some o => Ok (BinaryOperator (Span (s_start (operation_location left)) (s_end (operation_location right))) o (the_start operator) left right)
  | None => Panic
  end.
(** [parse_clause_guard_inner], parse.rs 1797-1849. *)
Definition parse_clause_guard_inner (unit_ : list spanned -> result (option (operation binop * list spanned)))
  : list spanned -> result (option (operation binop) * list spanned) :=
  parse (fun _ : unit => unit_) (fun _ _ => None) guard_precedence (fun _ => None) (fun _ => tt)
    (operation_reduction token_to_binop) tt.
(** [parse_const_value], parse.rs 3383-3441. *)
Definition reject_pipe (s : spanned) : option parse_error :=
  match the_token s with Pipe => Some (UnexpectedPipe (Span (the_start s) (snd s))) | _ => None end.
Definition parse_const_value (unit_ : list spanned -> result (option (operation binop * list spanned)))
  : list spanned -> result (option (operation binop) * list spanned) :=
  parse (fun _ : unit => unit_) (fun _ _ => None) precedence reject_pipe (fun _ => tt)
    (operation_reduction token_to_binop) tt.
(** [expect_bit_array_size], parse.rs 4091-4122: an operand that is missing is an error of the
    operand parser.  The reduction, 5153-5172, does not keep the place of the operator; it is kept
    here. *)
Definition expect_bit_array_size (unit_ : list spanned -> result (operation int_operator * list spanned))
  : list spanned -> result (option (operation int_operator) * list spanned) :=
  parse (fun (_ : unit) ts => match unit_ ts with
                     | Ok r => Ok (Some r)
                     | Err e => Err e
                     | Panic => Panic
                     | OutOfFuel => OutOfFuel
                     end) (fun _ _ => None) size_precedence (fun _ => None) (fun _ => tt)
    (operation_reduction token_to_bit_array_size_operator) tt.
