(** C38: operators parse with the documented precedence. *)
From Coq Require Import NArith Bool List Lia.
From Verif Require Import Text Operators OperatorsSpec OperatorsProofs.
Import ListNotations.
Local Open Scope N_scope.

(** Operands with operators between them can be grouped in one way only. *)
Theorem C38_one_grouping : forall (A : Type) (t u : tree A),
  grouped tighter same_row t -> grouped tighter same_row u ->
  (forall o, In (Op o) (in_order t) -> any_operator (the_token o)) -> in_order t = in_order u -> t = u.
Proof.
  intros A t u Gt Gu Ho E. apply (one_tree precedence (fun _ => None) (fun _ x _ => Ok x) tighter same_row precedence_tight (fun _ x _ _ _ => ex_intro _ x eq_refl)); try assumption.
  intros o Hin. apply precedence_operator. apply Ho. exact Hin.
Qed.
Print Assumptions C38_one_grouping.

(** Expressions, for every way to parse operands.  An expression is parsed exactly if operands with
    operators between them come first in the tokens; then the tree is that of the documented table,
    with the operands in source order. *)
Theorem C38_expressions : forall unit_ in_let tokens, sensible unit_ -> never_pipeline unit_ ->
  (forall e rest, parse_expression_inner unit_ in_let tokens = Ok (Some e, rest) <->
     exists t, reads unit_ (meant_a_let in_let) any_operator (fun _ => None) after OtherContext tokens (in_order t) rest /\
               grouped tighter same_row t /\ stands_for t e) /\
  (forall rest, parse_expression_inner unit_ in_let tokens = Ok (None, rest) <-> unit_ OtherContext tokens = Ok None /\ rest = tokens) /\
  (forall e, parse_expression_inner unit_ in_let tokens = Err e <->
     fails unit_ (meant_a_let in_let) any_operator (fun _ => None) after OtherContext None tokens e) /\
  parse_expression_inner unit_ in_let tokens <> Panic /\ parse_expression_inner unit_ in_let tokens <> OutOfFuel.
Proof.
  intros unit_ in_let tokens S P. unfold parse_expression_inner.
  assert (Ex1 : forall a ts, post_process_expression_unit in_let a ts = meant_a_let in_let a ts).
  { intros a ts. destruct a, in_let; try reflexivity. destruct ts as [|[[s []] e] ts]; reflexivity. }
  destruct (parse_spec unit_ (post_process_expression_unit in_let) precedence (fun _ => None) unit_context_after
    expression_operator_reduction tighter same_row any_operator precedence_operator precedence_tight) with (c := OtherContext) (ts := tokens) as (H1 & H2 & H3 & H4).
  - intros [[s t] e] x y H _. unfold expression_operator_reduction. cbn [the_token fst snd] in *.
    destruct t; cbn in *; try contradiction; try (eexists; reflexivity).
  - exact S.
  - split; [|split; [exact H2|split; [|exact H4]]].
    + intros e rest. rewrite H1. split; intros (t & R & G & B); exists t.
      * assert (V : forall a, In (Value a) (in_order t) -> plain a) by (eapply reads_values; [|exact R]; exact P).
        split; [|split; [exact G|apply stands_is_built; [exact V|exact B]]].
        eapply reads_ext; [exact Ex1|reflexivity|reflexivity|exact R].
      * assert (V : forall a, In (Value a) (in_order t) -> plain a) by (eapply reads_values; [|exact R]; exact P).
        split; [|split; [exact G|apply stands_is_built; [exact V|exact B]]].
        eapply reads_ext; [|reflexivity| |exact R]; [intros; symmetry; apply Ex1|reflexivity].
    + intros e. rewrite H3. split; intros F; eapply fails_ext; try exact F; try reflexivity; [exact Ex1|intros; symmetry; apply Ex1].
Qed.
Print Assumptions C38_expressions.

(** Guards: the same without pipes, though the numbers in the code differ. *)
Theorem C38_guards : forall unit_ tokens, sensible (fun _ : unit => unit_) ->
  (forall e rest, parse_clause_guard_inner unit_ tokens = Ok (Some e, rest) <->
     exists t, reads (fun _ => unit_) (fun _ _ => None) guard_operator (fun _ => None) (fun _ => tt) tt tokens (in_order t) rest /\
               grouped tighter same_row t /\ is_operation token_to_binop t e) /\
  (forall rest, parse_clause_guard_inner unit_ tokens = Ok (None, rest) <-> unit_ tokens = Ok None /\ rest = tokens) /\
  (forall e, parse_clause_guard_inner unit_ tokens = Err e <->
     fails (fun _ => unit_) (fun _ _ => None) guard_operator (fun _ => None) (fun _ => tt) tt None tokens e) /\
  parse_clause_guard_inner unit_ tokens <> Panic /\ parse_clause_guard_inner unit_ tokens <> OutOfFuel.
Proof.
  intros unit_ tokens S. unfold parse_clause_guard_inner.
  destruct (parse_spec (fun _ : unit => unit_) (fun _ _ => None) guard_precedence (fun _ => None) (fun _ => tt)
    (operation_reduction token_to_binop) tighter same_row guard_operator guard_is_operator guard_tight) with (c := tt) (ts := tokens) as (H1 & H2 & H3 & H4).
  - intros [[s t] e] x y H _. unfold operation_reduction. cbn [the_token fst snd] in *.
    destruct t; cbn in *; try contradiction; try (eexists; reflexivity).
  - exact S.
  - split; [|split; [exact H2|split; [exact H3|exact H4]]].
    intros e rest. rewrite H1. split; intros (t & R & G & B); exists t; (split; [exact R|split; [exact G|]]); apply operation_is_built; exact B.
Qed.
Print Assumptions C38_guards.

(** Constants: a pipe is an error. *)
Theorem C38_constants : forall unit_ tokens, sensible (fun _ : unit => unit_) ->
  (forall e rest, parse_const_value unit_ tokens = Ok (Some e, rest) <->
     exists t, reads (fun _ => unit_) (fun _ _ => None) any_operator no_pipe (fun _ => tt) tt tokens (in_order t) rest /\
               grouped tighter same_row t /\ is_operation token_to_binop t e) /\
  (forall rest, parse_const_value unit_ tokens = Ok (None, rest) <-> unit_ tokens = Ok None /\ rest = tokens) /\
  (forall e, parse_const_value unit_ tokens = Err e <->
     fails (fun _ => unit_) (fun _ _ => None) any_operator no_pipe (fun _ => tt) tt None tokens e) /\
  parse_const_value unit_ tokens <> Panic /\ parse_const_value unit_ tokens <> OutOfFuel.
Proof.
  intros unit_ tokens S. unfold parse_const_value.
  assert (Ex : forall o, reject_pipe o = no_pipe o) by (intros [[s []] e]; reflexivity).
  destruct (parse_spec (fun _ : unit => unit_) (fun _ _ => None) precedence reject_pipe (fun _ => tt)
    (operation_reduction token_to_binop) tighter same_row any_operator precedence_operator precedence_tight) with (c := tt) (ts := tokens) as (H1 & H2 & H3 & H4).
  - intros [[s t] e] x y H Hr. unfold operation_reduction. cbn [the_token fst snd] in *.
    destruct t; cbn in *; try contradiction; try discriminate; try (eexists; reflexivity).
  - exact S.
  - split; [|split; [exact H2|split; [|exact H4]]].
    + intros e rest. rewrite H1. split; intros (t & R & G & B); exists t; (split; [|split; [exact G|apply operation_is_built; exact B]]);
        eapply reads_ext; try exact R; try reflexivity; [exact Ex|intros; symmetry; apply Ex].
    + intros e. rewrite H3. split; intros F; eapply fails_ext; try exact F; try reflexivity; [exact Ex|intros; symmetry; apply Ex].
Qed.
Print Assumptions C38_constants.

(** Sizes of bit array segments in patterns: sums and products of integers. *)
Definition required {A} (unit_ : list spanned -> result (A * list spanned)) (_ : unit) (ts : list spanned) : result (option (A * list spanned)) :=
  match unit_ ts with
  | Ok r => Ok (Some r)
  | Err e => Err e
  | Panic => Panic
  | OutOfFuel => OutOfFuel
  end.
Theorem C38_sizes : forall unit_ tokens, sensible (required unit_) ->
  (forall e rest, expect_bit_array_size unit_ tokens = Ok (Some e, rest) <->
     exists t, reads (required unit_) (fun _ _ => None) size_operator (fun _ => None) (fun _ => tt) tt tokens (in_order t) rest /\
               grouped tighter same_row t /\ is_operation token_to_bit_array_size_operator t e) /\
  (forall rest, expect_bit_array_size unit_ tokens <> Ok (None, rest)) /\
  (forall e, expect_bit_array_size unit_ tokens = Err e <->
     fails (required unit_) (fun _ _ => None) size_operator (fun _ => None) (fun _ => tt) tt None tokens e) /\
  expect_bit_array_size unit_ tokens <> Panic /\ expect_bit_array_size unit_ tokens <> OutOfFuel.
Proof.
  intros unit_ tokens S.
  change (expect_bit_array_size unit_ tokens) with
    (parse (required unit_) (fun _ _ => None) size_precedence (fun _ => None) (fun _ => tt) (operation_reduction token_to_bit_array_size_operator) tt tokens).
  destruct (parse_spec (required unit_) (fun _ _ => None) size_precedence (fun _ => None) (fun _ => tt)
    (operation_reduction token_to_bit_array_size_operator) tighter same_row size_operator size_is_operator size_tight) with (c := tt) (ts := tokens) as (H1 & H2 & H3 & H4).
  - intros [[s t] e] x y H _. unfold operation_reduction. cbn [the_token fst snd] in *.
    destruct t; cbn in *; try contradiction; try (eexists; reflexivity).
  - exact S.
  - split; [|split; [|split; [exact H3|exact H4]]].
    + intros e rest. rewrite H1. split; intros (t & R & G & B); exists t; (split; [exact R|split; [exact G|]]); apply operation_is_built; exact B.
    + intros rest H. apply H2 in H. destruct H as [H _]. unfold required in H. destruct (unit_ tokens); discriminate.
Qed.
Print Assumptions C38_sizes.

(** The operators of the AST are those written. *)
Theorem C38_operators_keep_their_meaning : forall t,
  token_to_binop t =
  match t with
  | VbarVbar => Some Or | AmperAmper => Some And | EqualEqual => Some Eq | NotEqual => Some NotEq
  | Less => Some LtInt | LessEqual => Some LtEqInt | Greater => Some GtInt | GreaterEqual => Some GtEqInt
  | LessDot => Some LtFloat | LessEqualDot => Some LtEqFloat | GreaterDot => Some GtFloat | GreaterEqualDot => Some GtEqFloat
  | Plus => Some AddInt | Minus => Some SubInt | PlusDot => Some AddFloat | MinusDot => Some SubFloat
  | Percent => Some RemainderInt | Star => Some MultInt | StarDot => Some MultFloat | Slash => Some DivInt | SlashDot => Some DivFloat
  | Concatenate => Some Concat | _ => None
  end /\
  token_to_bit_array_size_operator t =
  match t with Plus => Some Add | Minus => Some Subtract | Star => Some Multiply | Slash => Some Divide | Percent => Some Remainder | _ => None end.
Proof. intros []; split; reflexivity. Qed.
Print Assumptions C38_operators_keep_their_meaning.

(** ** Examples *)
Definition operand (_ : unit_context) (ts : list spanned) : result (option (expr * list spanned)) :=
  match ts with
  | (s, Operand n, e) :: ts => Ok (Some (EUnit (Span s e) n, ts))
  | _ => Ok None
  end.
Lemma operand_sensible : sensible operand /\ never_pipeline operand.
Proof.
  split.
  - intros c [|[[s t] e] ts]; cbn; [exact I|]. destruct t; cbn; try exact I. lia.
  - intros c [|[[s t] e] ts] a rest H; cbn in H; [discriminate|]. destruct t; try discriminate. injection H as <- <-. exact I.
Qed.
Definition tokens_at (ts : list token) : list spanned :=
  map (fun x => (N.of_nat (2 * fst x), snd x, N.of_nat (2 * fst x + 1))) (combine (seq 0 (length ts)) ts).
(** [0 - 1 - 2 * 3 |> 4 |> 5 + 6 == 7]. *)
Definition u (n : N) (s : N) := EUnit (Span s (s + 1)) n.
Example C38_example :
  parse_expression_inner operand false
    (tokens_at [Operand 0; Minus; Operand 1; Minus; Operand 2; Star; Operand 3; Pipe; Operand 4; Pipe; Operand 5; Plus; Operand 6; EqualEqual; Operand 7; RightBrace]) =
  Ok (Some (EBinOp (Span 0 29) Eq 26
              (EPipeline (EBinOp (Span 0 13) SubInt 6 (EBinOp (Span 0 5) SubInt 2 (u 0 0) (u 1 4)) (EBinOp (Span 8 13) MultInt 10 (u 2 8) (u 3 12)))
                 [u 4 16; EBinOp (Span 20 25) AddInt 22 (u 5 20) (u 6 24)])
              (u 7 28)),
      [(30, RightBrace, 31)]) /\
  parse_expression_inner operand false (tokens_at [Operand 0; Plus; RightBrace]) = Err (OpNakedRight (Span 2 3)) /\
  parse_expression_inner operand false (tokens_at [RightBrace]) = Ok (None, [(0, RightBrace, 1)]).
Proof. repeat split; reflexivity. Qed.
Definition constant (ts : list spanned) : result (option (operation binop * list spanned)) :=
  match ts with
  | (s, Operand n, e) :: ts => Ok (Some (Unit (Span s e) n, ts))
  | _ => Ok None
  end.
Example C38_example_guard :
  parse_clause_guard_inner constant (tokens_at [Operand 0; VbarVbar; Operand 1; AmperAmper; Operand 2; Less; Operand 3]) =
  Ok (Some (BinaryOperator (Span 0 13) Or 2 (Unit (Span 0 1) 0)
              (BinaryOperator (Span 4 13) And 6 (Unit (Span 4 5) 1) (BinaryOperator (Span 8 13) LtInt 10 (Unit (Span 8 9) 2) (Unit (Span 12 13) 3)))), []) /\
  parse_const_value constant (tokens_at [Operand 0; Concatenate; Operand 1; Pipe; Operand 2]) = Err (UnexpectedPipe (Span 6 7)).
Proof. split; reflexivity. Qed.
Example C38_example_size :
  expect_bit_array_size (fun ts => match ts with
                                   | (s, Operand n, e) :: ts => Ok (Unit (Span s e) n, ts)
                                   | _ => Err (OperandError 0 (Span 0 0))
                                   end) (tokens_at [Operand 0; Star; Operand 1; Minus; Operand 2]) =
  Ok (Some (BinaryOperator (Span 0 9) Subtract 6 (BinaryOperator (Span 0 5) Multiply 2 (Unit (Span 0 1) 0) (Unit (Span 4 5) 1)) (Unit (Span 8 9) 2)), []).
Proof. reflexivity. Qed.
