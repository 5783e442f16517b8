(** C48, C49: formatting operators changes neither their grouping nor, a second time, anything. *)
From Coq Require Import NArith Bool List.
From Verif Require Import Text Operators OperatorsSpec OperatorFormat OperatorFormatSpec OperatorFormatProofs.
Import ListNotations.
Local Open Scope N_scope.

(** Whatever was parsed: the formatted tokens, wherever the printer puts them, parse to the same
    code, without double negations, and to the end. *)
Theorem C48_formatting_keeps_the_code : forall tokens e rest, parse_expression tokens = Ok (Some e, rest) ->
  forall tokens', map the_token tokens' = format e ->
  exists e', parse_expression tokens' = Ok (Some e', []) /\ code_of e' = simplify (code_of e).
Proof. intros tokens e rest P tokens' M. apply format_reads; [eapply parse_is_good; exact P|exact M]. Qed.
Print Assumptions C48_formatting_keeps_the_code.

(** [a - { b - c } * -d |> f == { x |> g } <> h], and [!] of a block; all braces stay, none is added. *)
Definition at_places (ts : list token) : list spanned := map (fun t => (0, t, 0)) ts.
Example C48_keeps_braces :
  exists e, parse_expression (at_places [Operand 1; Minus; LeftBrace; Operand 2; Minus; Operand 3; RightBrace; Star; Minus; Operand 4;
                                         Pipe; Operand 5; EqualEqual; LeftBrace; Operand 6; Pipe; Bang; LeftBrace; Operand 7; RightBrace; RightBrace;
                                         Concatenate; Operand 8]) = Ok (Some e, []) /\
    format e = [Operand 1; Minus; LeftBrace; Operand 2; Minus; Operand 3; RightBrace; Star; Minus; Operand 4;
                Pipe; Operand 5; EqualEqual; LeftBrace; Operand 6; Pipe; Bang; LeftBrace; Operand 7; RightBrace; RightBrace;
                Concatenate; Operand 8].
Proof. eexists. split; reflexivity. Qed.
Example C48_removes_double_negations :
  exists e, parse_expression (at_places [Bang; Bang; Bang; Operand 1; AmperAmper; Minus; Minus; Operand 2]) = Ok (Some e, []) /\
    format e = [Bang; Operand 1; AmperAmper; Operand 2] /\
    simplify (code_of e) = COp And (CNegateBool (CUnit 1)) (CUnit 2).
Proof. eexists. split; [reflexivity|]. split; reflexivity. Qed.

(** Formatting what was formatted changes nothing, unless [-] and [!] follow each other. *)
Theorem C49_formatting_again_partial : forall tokens e rest, parse_expression tokens = Ok (Some e, rest) ->
  negations_do_not_mix (code_of e) ->
  forall tokens' e' rest', map the_token tokens' = format e -> parse_expression tokens' = Ok (Some e', rest') -> format e' = format e.
Proof.
  intros tokens e rest P X tokens' e' rest' M P'.
  destruct (C48_formatting_keeps_the_code _ _ _ P _ M) as (e2 & P2 & C). rewrite P2 in P'. injection P' as <- <-.
  eapply (format_simplified (S (size e)) e (le_n _) 0 0); [eapply parse_is_good; exact P|eapply parse_is_good; exact P2|exact X|exact C].
Qed.
Print Assumptions C49_formatting_again_partial.
(** What is missing is false: [-!!-x] becomes [--x], and that [x].  (No value is both an integer
    and a boolean, but the formatter does not look at types.) *)
Theorem C49_formatting_again_refuted : exists tokens e tokens' e',
  parse_expression tokens = Ok (Some e, []) /\ map the_token tokens' = format e /\
  parse_expression tokens' = Ok (Some e', []) /\ format e' <> format e.
Proof.
  exists (at_places [Minus; Bang; Bang; Minus; Operand 1]). eexists. exists (at_places [Minus; Minus; Operand 1]). eexists.
  split; [reflexivity|]. split; [reflexivity|]. split; [reflexivity|]. discriminate.
Qed.
Print Assumptions C49_formatting_again_refuted.

(** The formatter relies on the parser: code that was not parsed can change its grouping. *)
Theorem C48_only_parsed_code_refuted : exists e tokens e',
  map the_token tokens = format e /\ parse_expression tokens = Ok (Some e', []) /\ code_of e' <> simplify (code_of e).
Proof.
  set (u n := EUnit (Span 0 0) n).
  exists (EBinOp (Span 0 0) SubInt 0 (u 1) (EBinOp (Span 0 0) SubInt 0 (u 2) (u 3))), (at_places [Operand 1; Minus; Operand 2; Minus; Operand 3]).
  eexists. split; [reflexivity|]. split; [reflexivity|]. discriminate.
Qed.
Print Assumptions C48_only_parsed_code_refuted.
