(** How the formatter writes operators: format/src/lib.rs; and operands that contain expressions:
    parse.rs [parse_expression_unit].

    Of a document only the tokens in it matter here, not its layout.  Operands are single tokens,
    negations, and blocks of one expression. *)
From Coq Require Import NArith Bool List.
From Verif Require Import Text Operators.
Import ListNotations.
Local Open Scope N_scope.

(** [parse_expression_unit], parse.rs 518-521 and 792-842: operands, [{], [!] and [-]; [parse_block]
    1309-1326. *)
Fixpoint parse_expression_unit (fuel : nat) (c : unit_context) (tokens : list spanned) : result (option (expr * list spanned)) :=
  match fuel with
  | O => OutOfFuel
  | S fuel =>
      match tokens with
      | (start, Operand n, end_) :: tokens => Ok (Some (EUnit (Span start end_) n, tokens))
      | (start, LeftBrace, _) :: tokens =>
          match parse_expression_inner (parse_expression_unit fuel) false tokens with
          | Ok (Some e, (_, RightBrace, end_) :: tokens) => Ok (Some (EBlock (Span start end_) e, tokens))
          | Ok (_, _) => Err (OperandError 0 (Span start start))
          | Err e => Err e
          | Panic => Panic
          | OutOfFuel => OutOfFuel
          end
      | (start, Bang, _) :: tokens =>
          match parse_expression_unit fuel OtherContext tokens with
          | Ok (Some (value, tokens)) => Ok (Some (ENegateBool (Span start (s_end (location value))) value, tokens))
          | Ok None => Err (ExpectedExpr (Span start start))
          | Err e => Err e
          | Panic => Panic
          | OutOfFuel => OutOfFuel
          end
      | (start, Minus, _) :: tokens =>
          match parse_expression_unit fuel OtherContext tokens with
          | Ok (Some (value, tokens)) => Ok (Some (ENegateInt (Span start (s_end (location value))) value, tokens))
          | Ok None => Err (ExpectedExpr (Span start start))
          | Err e => Err e
          | Panic => Panic
          | OutOfFuel => OutOfFuel
          end
      | _ => Ok None
      end
  end.
(** [parse_expression], parse.rs 419-421. *)
Definition parse_expression (tokens : list spanned) : result (option expr * list spanned) :=
  parse_expression_inner (parse_expression_unit (S (length tokens))) false tokens.

(** [binop], format/src/lib.rs 4066-4091. *)
Definition binop_token (o : binop) : token :=
  match o with
  | And => AmperAmper | Or => VbarVbar
  | LtInt => Less | LtEqInt => LessEqual | LtFloat => LessDot | LtEqFloat => LessEqualDot
  | Eq => EqualEqual | NotEq => NotEqual
  | GtEqInt => GreaterEqual | GtInt => Greater | GtEqFloat => GreaterEqualDot | GtFloat => GreaterDot
  | AddInt => Plus | AddFloat => PlusDot | SubInt => Minus | SubFloat => MinusDot
  | MultInt => Star | MultFloat => StarDot | DivInt => Slash | DivFloat => SlashDot
  | RemainderInt => Percent | Concat => Concatenate
  end.
(** [BinOp::operator_kind] and [can_be_grouped_with], ast.rs 1469-1492. *)
Inductive operator_kind := BooleanLogic | Equality | IntComparison | FloatComparison | IntMath | FloatMath | StringConcatenation.
Definition kind (o : binop) : operator_kind :=
  match o with
  | Concat => StringConcatenation
  | Eq | NotEq => Equality
  | And | Or => BooleanLogic
  | LtInt | LtEqInt | GtEqInt | GtInt => IntComparison
  | LtFloat | LtEqFloat | GtEqFloat | GtFloat => FloatComparison
  | AddInt | SubInt | MultInt | RemainderInt | DivInt => IntMath
  | AddFloat | SubFloat | MultFloat | DivFloat => FloatMath
  end.
Definition can_be_grouped_with (o o' : binop) : bool :=
  match kind o, kind o' with
  | BooleanLogic, BooleanLogic | Equality, Equality | IntComparison, IntComparison | FloatComparison, FloatComparison
  | IntMath, IntMath | FloatMath, FloatMath | StringConcatenation, StringConcatenation => true
  | _, _ => false
  end.
(** [UntypedExpr::bin_op_precedence], ast/untyped.rs 217-241. *)
Definition bin_op_precedence (e : expr) : N :=
  match e with
  | EBinOp _ o _ _ _ => binop_precedence o
  | EPipeline _ _ => 5
  | _ => 255
  end.
(** [wrap_block] 4414-4423 and [operator_side] 2026-2038. *)
Definition wrap_block (doc : list token) : list token := LeftBrace :: doc ++ [RightBrace].
Definition operator_side (doc : list token) (op side : N) : list token :=
  if side <? op then wrap_block doc else doc.
(** [expr] 1299-1320, [bin_op] 1868-1894, [bin_op_side] 1971-2024, [pipeline] 2074-2122,
    [negate_bool] 3375-3413, [negate_int] 3415-3451, [block] 3632-3672. *)
Fixpoint format (e : expr) : list token :=
  let bin_op_side (operator : binop) (side : expr) : list token :=
    match side with
    | EBinOp _ side_name _ _ _ =>
        if can_be_grouped_with side_name operator then format side
        else operator_side (format side) (binop_precedence operator) (bin_op_precedence side)
    | _ => operator_side (format side) (binop_precedence operator) (bin_op_precedence side)
    end in
  match e with
  | EUnit _ n | EList _ n => [Operand n]
  | ENegateInt _ value =>
      match value with
      | ENegateInt _ value => format value
      | EBinOp _ _ _ _ _ => Minus :: format value
      | _ => Minus :: format value
      end
  | ENegateBool _ value =>
      match value with
      | ENegateBool _ value => format value
      | EBinOp _ _ _ _ _ => Bang :: wrap_block (format value)
      | _ => Bang :: format value
      end
  | EBlock _ value => wrap_block (format value)
  | EBinOp _ o _ l r => bin_op_side o l ++ binop_token o :: bin_op_side o r
  | EPipeline first others =>
      operator_side (format first) 5 (bin_op_precedence first) ++
      concat (map (fun step => Pipe :: operator_side (format step) 4 (bin_op_precedence step)) others)
  end.
