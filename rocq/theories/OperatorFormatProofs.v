(** Proofs about the formatting of operators. *)
From Coq Require Import Arith NArith Bool List Lia ZifyBool ZifyN ZifyNat.
From Verif Require Import Text Operators OperatorsSpec OperatorsProofs OperatorFormat OperatorFormatSpec.
Import ListNotations.
Local Open Scope N_scope.

(** ** Expressions as they are parsed *)
Fixpoint good (p : N) (e : expr) : Prop :=
  match e with
  | EUnit _ _ => True
  | EList _ _ => False
  | ENegateInt _ v | ENegateBool _ v => good 9 v
  | EBlock _ v => good 0 v
  | EBinOp _ o _ l r => p <= binop_precedence o /\ good (binop_precedence o) l /\ good (binop_precedence o + 1) r
  | EPipeline f os => p <= 6 /\ os <> [] /\ good 7 f /\ (fix all os := match os with [] => True | o :: os => good 7 o /\ all os end) os
  end.
Lemma good_pipeline p f os : good p (EPipeline f os) <-> p <= 6 /\ os <> [] /\ good 7 f /\ Forall (good 7) os.
Proof.
  cbn [good]. set (all := fix all os := match os with [] => True | o :: os => good 7 o /\ all os end).
  assert (H : all os <-> Forall (good 7) os).
  { induction os as [|o os IH]; cbn [all]; [split; constructor|]. fold (all os). rewrite IH. split; [intros [H1 H2]; constructor; assumption|intros H; inversion H; auto]. }
  rewrite H. tauto.
Qed.
Lemma good_mono p q e : q <= p -> good p e -> good q e.
Proof.
  destruct e; try (intros; assumption).
  - cbn [good]. intros H (H1 & H2). split; [lia|assumption].
  - intros H. rewrite !good_pipeline. intros (H1 & H2). split; [lia|assumption].
Qed.
Lemma binop_bounds o : 1 <= binop_precedence o <= 8 /\ binop_precedence o <> 6.
Proof. destruct o; cbn; lia. Qed.
Lemma good_plain e : good 9 e -> plain e.
Proof. destruct e; try (intros; exact I). rewrite good_pipeline. lia. Qed.

Lemma precedence_bounds t p : precedence t = Some p -> 1 <= p <= 8.
Proof. destruct t; cbn; intros H; try discriminate; injection H as <-; lia. Qed.
Notation reduction := expression_operator_reduction.
Notation the_built := (built reduction).
Lemma built_good : forall t a, the_built t a -> grouped tighter same_row t -> (forall e, In (Value e) (in_order t) -> good 9 e) ->
  match t with Leaf _ => good 9 a | Node o _ _ => forall p, precedence (the_token o) = Some p -> good p a end.
Proof.
  induction 1 as [a|[[s t] e] l r x y a Bl IHl Br IHr E]; intros G Hv.
  - apply Hv. left. reflexivity.
  - cbn [grouped] in G. destruct G as (Gl & Gr & Tl & Tr). cbn [the_token fst snd] in *. intros p Hp.
    cbn [in_order] in Hv.
    assert (Hl : forall e, In (Value e) (in_order l) -> good 9 e) by (intros e0 H; apply Hv; apply in_or_app; left; exact H).
    assert (Hr : forall e, In (Value e) (in_order r) -> good 9 e) by (intros e0 H; apply Hv; apply in_or_app; right; right; exact H).
    specialize (IHl Gl Hl). specialize (IHr Gr Hr).
    assert (Gx : good p x).
    { destruct l as [b|o' l1 l2]; [apply (good_mono 9); [|exact IHl]; pose proof (precedence_bounds _ _ Hp); lia|].
      destruct (precedence (the_token o')) as [q|] eqn:Hq.
      - apply (good_mono q); [|exact (IHl q eq_refl)]. destruct (precedence_tight _ _ _ _ Hq Hp) as [H1 H2].
        destruct Tl as [Tl|Tl]; [apply H1 in Tl; lia|apply H2 in Tl; lia].
      - exfalso. destruct Tl as [(m & n & R & _)|(n & R & _)]; apply precedence_row in R; congruence. }
    assert (Gy : good (p + 1) y).
    { destruct r as [b|o' l1 l2]; [apply (good_mono 9); [|exact IHr]; pose proof (precedence_bounds _ _ Hp); lia|].
      destruct (precedence (the_token o')) as [q|] eqn:Hq.
      - apply (good_mono q); [|exact (IHr q eq_refl)]. destruct (precedence_tight _ _ _ _ Hq Hp) as [H1 H2]. apply H1 in Tr. lia.
      - exfalso. destruct Tr as (m & n & R & _); apply precedence_row in R; congruence. }
    clear -E Hp Gx Gy. unfold expression_operator_reduction in E. cbn [the_token fst snd the_start] in E.
    destruct t; cbn in Hp; try discriminate; injection Hp as <-; cbn in E;
      try (injection E as <-; cbn [good binop_precedence]; split; [lia|split; assumption]).
    destruct x as [| | | | |l o s0 x1 x2|f os]; injection E as <-; apply good_pipeline.
    all: try (split; [lia|split; [discriminate|split; [|constructor; [exact Gy|constructor]]]]).
    all: try exact Gx.
    + cbn [good] in *. destruct Gx as (H1 & H2 & H3). pose proof (binop_bounds o). split; [lia|split; assumption].
    + apply good_pipeline in Gx. destruct Gx as (H1 & H2 & H3 & H4). split; [lia|]. split; [destruct os; discriminate|]. split; [exact H3|].
      apply Forall_app. split; [exact H4|]. constructor; [exact Gy|constructor].
Qed.

(** ** An operand parser that answers *)
Section Calm.
Context (unit_ : unit_context -> list spanned -> result (option (expr * list spanned))).
Definition calm (c : unit_context) (ts : list spanned) : result (option (expr * list spanned)) :=
  match unit_ c ts with
  | Ok x => Ok x
  | Err e => Err e
  | Panic | OutOfFuel => Err (OperandError 0 (Span 0 0))
  end.
Lemma parse_calm in_let ts x : parse_expression_inner unit_ in_let ts = Ok x <-> parse_expression_inner calm in_let ts = Ok x.
Proof.
  unfold parse_expression_inner, parse. generalize (S (length ts)) as fuel. generalize OtherContext as c, (Span 0 0) as sp, (@nil (spanned * N)) as ops, (@nil expr) as es.
  intros c sp ops es fuel. revert c sp ops es ts. induction fuel as [|fuel IH]; intros c sp ops es ts; [reflexivity|].
  cbn [parse_operators]. unfold calm at 1. destruct (unit_ c ts) as [[[a rest]|]|e| |]; try reflexivity; try (split; discriminate).
  destruct (post_process_expression_unit in_let a rest); [reflexivity|].
  destruct rest as [|[[s t] e] rest]; [reflexivity|].
  destruct (precedence t); [|reflexivity].
  destruct (handle_operator _ _ _ _) as [[[u v] w]|e0| |]; try reflexivity. apply IH.
Qed.
Lemma check_good in_let a ts : good 9 a -> post_process_expression_unit in_let a ts = None.
Proof. intros G. destruct a, in_let; try reflexivity. contradiction. Qed.
Context (short : forall c ts a rest, unit_ c ts = Ok (Some (a, rest)) -> good 9 a /\ (length rest < length ts)%nat).
Lemma calm_sensible : sensible calm.
Proof.
  intros c ts. unfold calm. destruct (unit_ c ts) as [[[a rest]|]|e| |] eqn:E; try exact I. apply short in E. lia.
Qed.
Lemma calm_good c ts a rest : calm c ts = Ok (Some (a, rest)) -> good 9 a.
Proof. unfold calm. destruct (unit_ c ts) as [[[b r]|]|e| |] eqn:E; try discriminate. intros [= <- <-]. apply short in E. tauto. Qed.
Notation the_reads := (reads calm (post_process_expression_unit false) any_operator (fun _ => None) unit_context_after).
Lemma parse_built ts a rest : parse_expression_inner unit_ false ts = Ok (Some a, rest) <->
  exists t, the_reads OtherContext ts (in_order t) rest /\ grouped tighter same_row t /\ the_built t a.
Proof.
  rewrite parse_calm. unfold parse_expression_inner.
  destruct (parse_spec calm (post_process_expression_unit false) precedence (fun _ => None) unit_context_after
    expression_operator_reduction tighter same_row any_operator precedence_operator precedence_tight) with (c := OtherContext) (ts := ts) as (H1 & _).
  - intros [[s t] e] x y H _. unfold expression_operator_reduction. cbn [the_token fst snd] in *.
    destruct t; cbn in *; try contradiction; try (eexists; reflexivity).
  - exact calm_sensible.
  - apply H1.
Qed.
Lemma reads_shorter c ts items rest : the_reads c ts items rest -> (length rest < length ts)%nat.
Proof.
  assert (S : forall c ts a rest, calm c ts = Ok (Some (a, rest)) -> (length rest < length ts)%nat).
  { clear c ts items rest. intros c ts a rest. unfold calm. destruct (unit_ c ts) as [[[b r]|]|e| |] eqn:E; try discriminate. intros [= <- <-]. apply short in E. tauto. }
  induction 1 as [c ts a rest U Ch St|c ts a o ts' items rest U Ch Op_ Rj R IH]; apply S in U; [exact U|cbn [length] in U; lia].
Qed.
Lemma parse_good ts a rest : parse_expression_inner unit_ false ts = Ok (Some a, rest) -> good 0 a /\ (length rest < length ts)%nat.
Proof.
  intros H. apply parse_built in H. destruct H as (t & R & G & B). split; [|eapply reads_shorter; exact R].
  assert (V : forall e, In (Value e) (in_order t) -> good 9 e).
  { eapply (reads_values calm); [|exact R]. intros c ts' e r H. apply (calm_good c ts' e r H). }
  pose proof (built_good t a B G V) as X. destruct t as [b|o l r]; [apply (good_mono 9); [lia|exact X]|].
  destruct (precedence (the_token o)) as [p|] eqn:E; [apply (good_mono p); [lia|apply X; reflexivity]|].
  exfalso. revert E. eapply (reads_ops calm (post_process_expression_unit false) precedence (fun _ => None) unit_context_after any_operator precedence_operator); [exact R|]. cbn [in_order]. apply in_elt.
Qed.
End Calm.

Lemma unit_good fuel : forall c ts a rest, parse_expression_unit fuel c ts = Ok (Some (a, rest)) -> good 9 a /\ (length rest < length ts)%nat.
Proof.
  induction fuel as [|fuel IH]; intros c ts a rest H; [discriminate|]. cbn [parse_expression_unit] in H.
  destruct ts as [|[[s t] e] ts]; [discriminate|]. destruct t; try discriminate.
  - destruct (parse_expression_unit fuel OtherContext ts) as [[[v r]|]|e0| |] eqn:E; try discriminate. injection H as <- <-.
    apply IH in E. cbn [good length]. split; [tauto|lia].
  - destruct (parse_expression_inner (parse_expression_unit fuel) false ts) as [[[v|] r]|e0| |] eqn:E; try discriminate.
    destruct r as [|[[s1 t1] e1] r]; [discriminate|]. destruct t1; try discriminate. injection H as <- <-.
    apply parse_good in E; [|exact IH]. cbn [good length] in *. split; [tauto|lia].
  - destruct (parse_expression_unit fuel OtherContext ts) as [[[v r]|]|e0| |] eqn:E; try discriminate. injection H as <- <-.
    apply IH in E. cbn [good length]. split; [tauto|lia].
  - injection H as <- <-. cbn [good length]. split; [exact I|lia].
Qed.
Lemma parse_is_good ts a rest : parse_expression ts = Ok (Some a, rest) -> good 0 a.
Proof. intros H. apply parse_good in H; [tauto|apply unit_good]. Qed.

(** ** What is written *)
Lemma no_wrap p o e : good p e -> binop_precedence o <= p -> bin_op_precedence e <? binop_precedence o = false.
Proof.
  intros G H. pose proof (binop_bounds o). destruct e; cbn [bin_op_precedence]; try lia.
  - cbn [good] in G. lia.
  - apply good_pipeline in G. lia.
Qed.
Lemma format_binop l o s x y : good 0 (EBinOp l o s x y) -> format (EBinOp l o s x y) = format x ++ binop_token o :: format y.
Proof.
  intros (_ & Gx & Gy).
  assert (W : forall p e, good p e -> binop_precedence o <= p -> operator_side (format e) (binop_precedence o) (bin_op_precedence e) = format e).
  { intros p e G H. unfold operator_side. rewrite (no_wrap p o e G H). reflexivity. }
  assert (Wx := W _ x Gx (N.le_refl _)). assert (Wy : operator_side (format y) (binop_precedence o) (bin_op_precedence y) = format y) by (apply (W _ y Gy); lia).
  change (format (EBinOp l o s x y)) with
    (match x with
     | EBinOp _ side_name _ _ _ => if can_be_grouped_with side_name o then format x else operator_side (format x) (binop_precedence o) (bin_op_precedence x)
     | _ => operator_side (format x) (binop_precedence o) (bin_op_precedence x)
     end ++ binop_token o ::
     match y with
     | EBinOp _ side_name _ _ _ => if can_be_grouped_with side_name o then format y else operator_side (format y) (binop_precedence o) (bin_op_precedence y)
     | _ => operator_side (format y) (binop_precedence o) (bin_op_precedence y)
     end).
  rewrite Wx, Wy. f_equal; [destruct x; try reflexivity; destruct (can_be_grouped_with _ _); reflexivity|].
  f_equal. destruct y; try reflexivity; destruct (can_be_grouped_with _ _); reflexivity.
Qed.
Lemma good_7 e : good 7 e -> 7 <= bin_op_precedence e.
Proof. destruct e; cbn [bin_op_precedence]; try lia; [cbn [good]; lia|rewrite good_pipeline; lia]. Qed.
Lemma format_pipeline f os : good 0 (EPipeline f os) -> format (EPipeline f os) = format f ++ concat (map (fun s => Pipe :: format s) os).
Proof.
  rewrite good_pipeline. intros (_ & _ & Gf & Gos). cbn [format].
  assert (W : forall n e, good 7 e -> n <= 5 -> operator_side (format e) n (bin_op_precedence e) = format e).
  { intros n e G H. unfold operator_side. pose proof (good_7 e G). destruct (N.ltb_spec (bin_op_precedence e) n); [lia|reflexivity]. }
  rewrite W by (assumption || lia). f_equal. f_equal. apply map_ext_in. intros s H. rewrite W; [reflexivity| |lia].
  exact (proj1 (Forall_forall _ _) Gos s H).
Qed.

(** ** Reading what is written *)
Fixpoint size (e : expr) : nat :=
  match e with
  | EUnit _ _ | EList _ _ => 1
  | ENegateInt _ v | ENegateBool _ v | EBlock _ v => S (size v)
  | EBinOp _ _ _ l r => S (size l + size r)
  | EPipeline f os => S (size f + fold_right (fun e n => size e + n) 0 os)
  end%nat.
Lemma size_in e os : In e os -> (size e <= fold_right (fun e n => size e + n) 0 os)%nat.
Proof. induction os as [|o os IH]; cbn; [tauto|]. intros [->|H]; [lia|]. specialize (IH H). lia. Qed.

Notation unit_reads fuel := (reads (calm (parse_expression_unit fuel)) (post_process_expression_unit false) any_operator (fun _ => None) unit_context_after).
(** However the tokens go on. *)
Definition extends (ts0 : list spanned) (t : tree expr) : Prop := forall fuel rest c, (length (ts0 ++ rest) < fuel)%nat ->
  (stops any_operator rest -> unit_reads fuel c (ts0 ++ rest) (in_order t) rest) /\
  (forall o ts' items r, rest = o :: ts' -> any_operator (the_token o) -> unit_reads fuel (unit_context_after (the_token o)) ts' items r ->
     unit_reads fuel c (ts0 ++ rest) (in_order t ++ Op o :: items) r).
Definition reads_unit (e : expr) : Prop := good 9 e -> forall ts0, map the_token ts0 = format e -> exists e',
  (forall fuel c rest, (length (ts0 ++ rest) < fuel)%nat -> parse_expression_unit fuel c (ts0 ++ rest) = Ok (Some (e', rest))) /\
  code_of e' = simplify (code_of e).
Definition reads_tree (e : expr) : Prop := forall p, good p e -> forall ts0, map the_token ts0 = format e -> exists t a,
  the_built t a /\ grouped tighter same_row t /\ not_below precedence p t /\ code_of a = simplify (code_of e) /\ extends ts0 t /\
  (forall e, In (Value e) (in_order t) -> good 9 e).
Definition is_pipe (e : expr) : bool := match e with EPipeline _ _ => true | _ => false end.

Lemma unit_tree e : reads_unit e -> good 9 e -> forall ts0, map the_token ts0 = format e -> exists t a,
  the_built t a /\ grouped tighter same_row t /\ not_below precedence 9 t /\ code_of a = simplify (code_of e) /\ extends ts0 t /\
  (forall e, In (Value e) (in_order t) -> good 9 e).
Proof.
  intros R G ts0 M. destruct (R G ts0 M) as (e' & P & C). exists (Leaf e'), e'.
  assert (G' : good 9 e') by (specialize (P (S (length (ts0 ++ []))) OtherContext [] (Nat.lt_succ_diag_r _)); apply unit_good in P; tauto).
  split; [constructor|]. split; [exact I|]. split; [exact I|]. split; [exact C|]. split; [|intros x [[= <-]|[]]; exact G'].
  intros fuel rest c L. split.
  - intros St. apply reads_last; [unfold calm; rewrite P by exact L; reflexivity|apply check_good; exact G'|exact St].
  - intros o ts' items r -> Ho R'. apply reads_more with (ts' := ts'); [unfold calm; rewrite P by exact L; reflexivity|apply check_good; exact G'|exact Ho|reflexivity|exact R'].
Qed.
Lemma binop_token_precedence o : precedence (binop_token o) = Some (binop_precedence o).
Proof. destruct o; reflexivity. Qed.
Lemma binop_token_back o : token_to_binop (binop_token o) = Some o.
Proof. destruct o; reflexivity. Qed.
Lemma extends_node ts1 o ts2 l r : extends ts1 l -> extends ts2 r -> any_operator (the_token o) -> extends (ts1 ++ o :: ts2) (Node o l r).
Proof.
  intros El Er Ho fuel rest c L. rewrite <- app_assoc in *. cbn [app] in *.
  assert (L2 : (length (ts2 ++ rest) < fuel)%nat) by (rewrite app_length in L; cbn [length] in L; lia).
  destruct (El fuel (o :: ts2 ++ rest) c L) as [_ E1]. destruct (Er fuel rest (unit_context_after (the_token o)) L2) as [E2 E3].
  cbn [in_order]. split.
  - intros St. apply (E1 o (ts2 ++ rest)); [reflexivity|exact Ho|apply E2; exact St].
  - intros o' ts' items q E Ho' R. rewrite <- app_assoc. cbn [app]. apply (E1 o (ts2 ++ rest)); [reflexivity|exact Ho|]. apply (E3 o' ts'); assumption.
Qed.
Lemma map_app_inv {X Y} (f : X -> Y) l a b : map f l = a ++ b -> exists la lb, l = la ++ lb /\ map f la = a /\ map f lb = b.
Proof.
  revert l. induction a as [|x a IH]; intros l H; [exists [], l; auto|].
  destruct l as [|y l]; [discriminate|]. injection H as <- H. destruct (IH l H) as (la & lb & -> & <- & <-). exists (y :: la), lb. auto.
Qed.
Lemma map_cons_inv {X Y} (f : X -> Y) l x a : map f l = x :: a -> exists y l', l = y :: l' /\ f y = x /\ map f l' = a.
Proof. destruct l as [|y l]; [discriminate|]. intros [= <- <-]. eauto. Qed.
Lemma values_node l o r (P : expr -> Prop) : (forall e : expr, In (Value e) (in_order l) -> P e) -> (forall e, In (Value e) (in_order r) -> P e) ->
  forall e, In (Value e) (in_order (Node o l r)) -> P e.
Proof. intros H1 H2 e H. cbn [in_order] in H. apply in_app_or in H. destruct H as [H|[[=]|H]]; auto. Qed.
Lemma above_not_below p t : not_below (A := expr) precedence (p + 1) t -> above precedence p t.
Proof. destruct t; [auto|]. cbn. intros (q & H & L). exists q. split; [exact H|lia]. Qed.
Lemma built_not_pipe t a : the_built t a -> not_below precedence 7 t -> (forall e, In (Value e) (in_order t) -> good 9 e) -> is_pipe a = false.
Proof.
  intros B N V. destruct B as [a|[[s t] e] l r x y a Bl Br E].
  - specialize (V a (or_introl eq_refl)). apply good_plain in V. destruct a; try reflexivity. contradiction.
  - destruct N as (q & H & L). unfold expression_operator_reduction in E. cbn [the_token fst snd] in *.
    destruct t; cbn in H, E; try discriminate; injection E as <-; try reflexivity. injection H as <-. lia.
Qed.

Lemma group_node o p (l r : tree expr) : precedence (the_token o) = Some p -> grouped tighter same_row l -> grouped tighter same_row r ->
  not_below precedence p l -> above precedence p r -> grouped tighter same_row (Node o l r).
Proof.
  apply (grouped_node precedence (fun _ => None) expression_operator_reduction tighter same_row precedence_tight).
  intros [[s t] e] x y H _. unfold expression_operator_reduction. cbn [the_token fst snd] in *.
  destruct t; cbn in *; try contradiction; try (eexists; reflexivity).
Qed.

(** More steps of a pipeline. *)
Lemma reads_steps : forall os, Forall (good 7) os -> (forall e, In e os -> reads_tree e) ->
  forall ts0, map the_token ts0 = concat (map (fun s => Pipe :: format s) os) ->
  forall tsf tf first others, the_built tf (EPipeline first others) -> grouped tighter same_row tf -> not_below precedence 6 tf ->
    extends tsf tf -> (forall e, In (Value e) (in_order tf) -> good 9 e) ->
  exists t more, the_built t (EPipeline first (others ++ more)) /\ grouped tighter same_row t /\ not_below precedence 6 t /\
    map code_of more = map (fun e => simplify (code_of e)) os /\ extends (tsf ++ ts0) t /\ (forall e, In (Value e) (in_order t) -> good 9 e).
Proof.
  induction os as [|s os IH]; intros Gos R ts0 M tsf tf first others B G N E V.
  - exists tf, []. destruct ts0; [|discriminate]. rewrite !app_nil_r. cbn [map]. tauto.
  - inversion Gos as [|? ? Gs Gos']; subst. cbn [map concat] in M.
    change ((Pipe :: format s) ++ concat (map (fun s => Pipe :: format s) os)) with (Pipe :: (format s ++ concat (map (fun s => Pipe :: format s) os))) in M.
    apply map_cons_inv in M. destruct M as (o & ts1 & -> & Ho & M). apply map_app_inv in M. destruct M as (tss & ts2 & -> & Ms & M2).
    destruct (R s (or_introl eq_refl) 7 Gs tss Ms) as (ts & a & Bs & Gsr & Ns & Cs & Es & Vs).
    assert (Op_ : any_operator (the_token o)) by (rewrite Ho; apply precedence_operator; discriminate).
    destruct (IH Gos' (fun e H => R e (or_intror H)) ts2 M2 (tsf ++ o :: tss) (Node o tf ts) first (others ++ [a])) as (t & more & Bt & Gt & Nt & Ct & Et & Vt).
    + econstructor; [exact B|exact Bs|]. unfold expression_operator_reduction. rewrite Ho. reflexivity.
    + apply (group_node o 6); try assumption; [rewrite Ho; reflexivity|apply above_not_below; exact Ns].
    + exists 6. split; [rewrite Ho; reflexivity|lia].
    + apply extends_node; assumption.
    + apply values_node; assumption.
    + exists t, (a :: more). rewrite <- app_assoc in Bt. cbn [app] in Bt. split; [exact Bt|]. split; [exact Gt|]. split; [exact Nt|].
      split; [cbn [map]; rewrite Cs, Ct; reflexivity|]. split; [|exact Vt]. rewrite <- app_assoc in Et. cbn [app] in Et. exact Et.
Qed.

Lemma all_reads : forall n e, (size e < n)%nat -> reads_unit e /\ reads_tree e.
Proof.
  induction n as [|n IH]; intros e L; [lia|].
  assert (U : reads_unit e).
  { intros G ts0 M. destruct e as [l k|l k|l v|l v|l v|l o s x y|f os].
    - cbn [format] in M. apply map_cons_inv in M. destruct M as ([[s t] e] & ts1 & -> & Ht & M). destruct ts1; [|discriminate]. cbn in Ht. subst t.
      exists (EUnit (Span s e) k). split; [|reflexivity]. intros [|fuel] c rest H; [lia|]. reflexivity.
    - contradiction.
    - cbn [good] in G. assert (Sv : (size v < n)%nat) by (cbn [size] in L; lia).
      assert (D : (exists l' w, v = ENegateInt l' w) \/ (format (ENegateInt l v) = Minus :: format v /\ simplify (code_of (ENegateInt l v)) = CNegateInt (simplify (code_of v)))).
      { destruct v; try (right; split; reflexivity). left. eauto. }
      destruct D as [(l' & w & ->)|[Ef Es]].
      + cbn [size] in Sv. destruct (IH w ltac:(lia)) as [Uw _]. exact (Uw G ts0 M).
      + rewrite Ef in M. apply map_cons_inv in M. destruct M as ([[s t] e] & ts1 & -> & Ht & M). cbn in Ht. subst t.
        destruct (IH v Sv) as [Uv _]. destruct (Uv G ts1 M) as (v' & P & C).
        exists (ENegateInt (Span s (s_end (location v'))) v'). split; [|rewrite Es; cbn [code_of]; rewrite C; reflexivity].
        intros [|fuel] c rest H; [lia|]. cbn [app parse_expression_unit]. rewrite P by (cbn [app length] in H; lia). reflexivity.
    - cbn [good] in G. assert (Sv : (size v < n)%nat) by (cbn [size] in L; lia).
      assert (D : (exists l' w, v = ENegateBool l' w) \/ (format (ENegateBool l v) = Bang :: format v /\ simplify (code_of (ENegateBool l v)) = CNegateBool (simplify (code_of v)))).
      { destruct v; try (right; split; reflexivity); [left; eauto|]. cbn [good] in G. pose proof (binop_bounds operator). lia. }
      destruct D as [(l' & w & ->)|[Ef Es]].
      + cbn [size] in Sv. destruct (IH w ltac:(lia)) as [Uw _]. exact (Uw G ts0 M).
      + rewrite Ef in M. apply map_cons_inv in M. destruct M as ([[s t] e] & ts1 & -> & Ht & M). cbn in Ht. subst t.
        destruct (IH v Sv) as [Uv _]. destruct (Uv G ts1 M) as (v' & P & C).
        exists (ENegateBool (Span s (s_end (location v'))) v'). split; [|rewrite Es; cbn [code_of]; rewrite C; reflexivity].
        intros [|fuel] c rest H; [lia|]. cbn [app parse_expression_unit]. rewrite P by (cbn [app length] in H; lia). reflexivity.
    - cbn [good] in G. cbn [size] in L. cbn [format] in M. unfold wrap_block in M.
      apply map_cons_inv in M. destruct M as ([[s t] e] & ts1 & -> & Ht & M). cbn in Ht. subst t.
      apply map_app_inv in M. destruct M as (tsv & ts2 & -> & Mv & M). apply map_cons_inv in M. destruct M as ([[s2 t2] e2] & ts3 & -> & Ht & M). cbn in Ht. subst t2.
      destruct ts3; [|discriminate].
      destruct (IH v ltac:(lia)) as [_ Tv]. destruct (Tv 0 G tsv Mv) as (t & a & B & Gt & _ & C & E & V).
      exists (EBlock (Span s e2) a). split; [|cbn [code_of simplify]; rewrite C; reflexivity].
      intros [|fuel] c rest H; [lia|]. cbn [app] in H |- *. rewrite <- app_assoc in H |- *. cbn [app] in H |- *. cbn [parse_expression_unit].
      assert (P : parse_expression_inner (parse_expression_unit fuel) false (tsv ++ (s2, RightBrace, e2) :: rest) = Ok (Some a, (s2, RightBrace, e2) :: rest)).
      { apply parse_built; [apply unit_good|]. exists t. split; [|split; assumption].
        destruct (E fuel ((s2, RightBrace, e2) :: rest) OtherContext) as [E1 _]; [cbn [length] in H; lia|]. apply E1.
        cbn. intros [m Rw]. apply precedence_row in Rw. discriminate. }
      rewrite P. reflexivity.
    - cbn [good] in G. pose proof (binop_bounds o). lia.
    - apply good_pipeline in G. lia. }
  split; [exact U|]. intros p G ts0 M.
  assert (D : (good 9 e /\ simplify (code_of e) = simplify (code_of e)) \/ match e with EBinOp _ _ _ _ _ | EPipeline _ _ => True | _ => False end).
  { destruct e; try (left; split; [exact G|reflexivity]); right; exact I. }
  destruct D as [[G9 _]|D].
  - destruct (unit_tree e U G9 ts0 M) as (t & a & B & Gt & N & C & E & V). exists t, a. split; [exact B|]. split; [exact Gt|]. split; [|split; [exact C|split; [exact E|exact V]]].
    destruct t; [exact I|]. destruct N as (q & H & Hl). pose proof (precedence_bounds _ _ H). lia.
  - destruct e as [l k|l k|l v|l v|l v|l o s x y|f os]; try contradiction.
    + rewrite format_binop in M by (apply (good_mono p); [lia|exact G]). cbn [size] in L. destruct G as (Hp & Gx & Gy).
      apply map_app_inv in M. destruct M as (tsx & ts1 & -> & Mx & M). apply map_cons_inv in M. destruct M as (ot & tsy & -> & Ho & My).
      destruct (IH x ltac:(lia)) as [_ Tx]. destruct (IH y ltac:(lia)) as [_ Ty].
      destruct (Tx _ Gx tsx Mx) as (tx & ax & Bx & Gtx & Nx & Cx & Ex & Vx). destruct (Ty _ Gy tsy My) as (ty & ay & By & Gty & Ny & Cy & Ey & Vy).
      assert (Pr : precedence (the_token ot) = Some (binop_precedence o)) by (rewrite Ho; apply binop_token_precedence).
      assert (Red : exists lo so, expression_operator_reduction ot ax ay = Ok (EBinOp lo o so ax ay)).
      { unfold expression_operator_reduction. rewrite Ho. destruct o; cbn; eexists; eexists; reflexivity. }
      destruct Red as (lo & so & Red).
      exists (Node ot tx ty), (EBinOp lo o so ax ay). split; [econstructor; eassumption|].
      split; [apply (group_node ot (binop_precedence o)); try assumption; apply above_not_below; exact Ny|].
      split; [exists (binop_precedence o); split; [exact Pr|exact Hp]|].
      split; [cbn [code_of simplify]; rewrite Cx, Cy; reflexivity|].
      split; [apply extends_node; try assumption; apply precedence_operator; congruence|apply values_node; assumption].
    + rewrite format_pipeline in M by (apply (good_mono p); [lia|exact G]). cbn [size] in L. apply good_pipeline in G. destruct G as (Hp & Ne & Gf & Gos).
      apply map_app_inv in M. destruct M as (tsf & ts1 & -> & Mf & M).
      destruct (IH f ltac:(lia)) as [_ Tf]. destruct (Tf _ Gf tsf Mf) as (tf & af & Bf & Gtf & Nf & Cf & Ef & Vf).
      destruct os as [|s os]; [contradiction|]. inversion Gos as [|? ? Gs Gos']; subst. cbn [fold_right] in L.
      cbn [map concat] in M.
      change ((Pipe :: format s) ++ concat (map (fun s => Pipe :: format s) os)) with (Pipe :: (format s ++ concat (map (fun s => Pipe :: format s) os))) in M.
      apply map_cons_inv in M. destruct M as (ot & ts2 & -> & Ho & M). apply map_app_inv in M. destruct M as (tss & ts3 & -> & Ms & M).
      destruct (IH s ltac:(lia)) as [_ Ts]. destruct (Ts _ Gs tss Ms) as (tr & ar & Br & Gtr & Nr & Cr & Er & Vr).
      assert (Op_ : any_operator (the_token ot)) by (rewrite Ho; apply precedence_operator; discriminate).
      pose proof (built_not_pipe _ _ Bf Nf Vf) as Np.
      assert (Bn : the_built (Node ot tf tr) (EPipeline af [ar])).
      { econstructor; [exact Bf|exact Br|]. unfold expression_operator_reduction. rewrite Ho. destruct af; try reflexivity. discriminate. }
      destruct (reads_steps os Gos') with (ts0 := ts3) (tsf := tsf ++ ot :: tss) (tf := Node ot tf tr) (first := af) (others := [ar]) as (t & more & Bt & Gt & Nt & Ct & Et & Vt).
      * intros e' H. apply IH. pose proof (size_in _ _ H). lia.
      * exact M.
      * exact Bn.
      * apply (group_node ot 6); try assumption; [rewrite Ho; reflexivity| |apply above_not_below; exact Nr].
        destruct tf; [exact I|]. destruct Nf as (q & Hq & Hl). exists q. split; [exact Hq|lia].
      * exists 6. split; [rewrite Ho; reflexivity|lia].
      * apply extends_node; assumption.
      * apply values_node; assumption.
      * exists t, (EPipeline af ([ar] ++ more)). split; [exact Bt|]. split; [exact Gt|].
        split; [destruct t; [exact I|]; destruct Nt as (q & Hq & Hl); exists q; split; [exact Hq|lia]|].
        split; [cbn [code_of simplify map app]; rewrite Cf, Cr, Ct, map_map; reflexivity|].
        split; [|exact Vt]. rewrite <- app_assoc in Et. cbn [app] in Et. exact Et.
Qed.

Theorem format_reads e ts : good 0 e -> map the_token ts = format e ->
  exists e', parse_expression ts = Ok (Some e', []) /\ code_of e' = simplify (code_of e).
Proof.
  intros G M. destruct (all_reads (S (size e)) e (Nat.lt_succ_diag_r _)) as [_ T]. destruct (T 0 G ts M) as (t & a & B & Gt & _ & C & E & V).
  exists a. split; [|exact C]. unfold parse_expression. apply parse_built; [apply unit_good|]. exists t. split; [|split; assumption].
  destruct (E (S (length ts)) [] OtherContext) as [E1 _]; [rewrite app_nil_r; lia|]. rewrite app_nil_r in E1. apply E1. exact I.
Qed.

(** ** Formatting again *)
Lemma no_mix_list os : fold_right (fun c P => negations_do_not_mix c /\ P) True os <-> Forall negations_do_not_mix os.
Proof. induction os as [|o os IH]; cbn; [split; constructor|]. rewrite IH. split; [intros [H1 H2]; constructor; assumption|intros H; inversion H; auto]. Qed.
Lemma operand_cases v : good 9 v -> match v with EUnit _ _ | ENegateInt _ _ | ENegateBool _ _ | EBlock _ _ => True | _ => False end.
Proof.
  destruct v; try (intros; exact I); try (intros H; exact H).
  - cbn [good]. pose proof (binop_bounds operator). lia.
  - rewrite good_pipeline. lia.
Qed.
Lemma format_simplified : forall n e, (size e < n)%nat -> forall p q e', good p e -> good q e' -> negations_do_not_mix (code_of e) ->
  code_of e' = simplify (code_of e) -> format e' = format e.
Proof.
  induction n as [|n IH]; intros e L p q e' G G' X C; [lia|].
  destruct e as [l k|l k|l v|l v|l v|l o s x y|f os]; cbn [size] in L.
  - cbn [code_of simplify] in C. destruct e'; try discriminate; injection C as <-; reflexivity.
  - contradiction.
  - cbn [good] in G. cbn [code_of negations_do_not_mix] in X. pose proof (operand_cases v G) as O.
    destruct v as [l1 k|l1 k|l1 w|l1 w|l1 w|l1 o s x y|f os]; try contradiction.
    + cbn in C. destruct e' as [| |l2 [l3 k3| | | | | |]| | | |]; try discriminate; try contradiction. injection C as ->. reflexivity.
    + cbn [size] in L. apply (IH w ltac:(lia) 9 q e' G G'); [apply X|exact C].
    + destruct X as [[] _].
    + cbn in C. destruct e' as [| |l2 v'| | | |]; try discriminate. cbn [code_of] in C. injection C as C. cbn [good] in G'.
      assert (F : format v' = format (EBlock l1 w)) by (apply (IH (EBlock l1 w) (proj2 (Nat.succ_lt_mono _ _) L) 9 9 v' G G'); [apply X|exact C]).
      destruct v' as [| | | |l3 w'| |]; try discriminate. cbn [format] in F |- *. rewrite F. reflexivity.
  - cbn [good] in G. cbn [code_of negations_do_not_mix] in X. pose proof (operand_cases v G) as O.
    destruct v as [l1 k|l1 k|l1 w|l1 w|l1 w|l1 o s x y|f os]; try contradiction.
    + cbn in C. destruct e' as [| | |l2 [l3 k3| | | | | |]| | |]; try discriminate; try contradiction. injection C as ->. reflexivity.
    + destruct X as [[] _].
    + cbn [size] in L. apply (IH w ltac:(lia) 9 q e' G G'); [apply X|exact C].
    + cbn in C. destruct e' as [| | |l2 v'| | |]; try discriminate. cbn [code_of] in C. injection C as C. cbn [good] in G'.
      assert (F : format v' = format (EBlock l1 w)) by (apply (IH (EBlock l1 w) (proj2 (Nat.succ_lt_mono _ _) L) 9 9 v' G G'); [apply X|exact C]).
      destruct v' as [| | | |l3 w'| |]; try discriminate. cbn [format] in F |- *. rewrite F. reflexivity.
  - cbn [code_of simplify] in C. destruct e' as [| | | |l2 v'| |]; try discriminate. injection C as C. cbn [format]. f_equal.
    apply (IH v ltac:(lia) 0 0 v' G G'); [exact X|exact C].
  - cbn [code_of simplify] in C. destruct e' as [| | | | |l2 o2 s2 x2 y2|]; try discriminate. injection C as -> Cx Cy.
    rewrite !format_binop; try (eapply good_mono; [|eassumption]; lia).
    cbn [good] in G, G'. destruct G as (_ & Gx & Gy), G' as (_ & Gx2 & Gy2). cbn [code_of negations_do_not_mix] in X.
    rewrite (IH x ltac:(lia) _ _ x2 Gx Gx2), (IH y ltac:(lia) _ _ y2 Gy Gy2); tauto.
  - cbn [code_of simplify] in C. destruct e' as [| | | | | |f2 os2]; try discriminate. injection C as Cf Cos.
    rewrite !format_pipeline; try (eapply good_mono; [|eassumption]; lia).
    apply good_pipeline in G, G'. destruct G as (_ & _ & Gf & Gos), G' as (_ & _ & Gf2 & Gos2).
    cbn [code_of negations_do_not_mix] in X. rewrite no_mix_list in X. destruct X as [Xf Xos].
    rewrite (IH f ltac:(lia) _ _ f2 Gf Gf2 Xf Cf). f_equal. f_equal.
    assert (Ls : forall e, In e os -> (size e < n)%nat) by (intros e H; pose proof (size_in _ _ H); lia).
    clear -IH Ls Gos Gos2 Xos Cos. revert os2 Gos2 Cos. induction os as [|a os IHo]; intros [|b os2] Gos2 Cos; try discriminate; [reflexivity|].
    cbn [map] in *. injection Cos as Ca Cos. inversion Gos; subst. inversion Gos2; subst. inversion Xos; subst. f_equal.
    + f_equal. apply (IH a) with (p := 7) (q := 7); try assumption. apply Ls. left. reflexivity.
    + apply IHo; try assumption. intros e H'. apply Ls. right. exact H'.
Qed.
