(** What the grouping of operators should be. *)
From Coq Require Import NArith Bool List.
From Verif Require Import Text Operators.
Import ListNotations.
Local Open Scope N_scope.

(** ** The documented table, from the loosest to the tightest *)
Definition table : list (list token) :=
  [[VbarVbar];
   [AmperAmper];
   [EqualEqual; NotEqual];
   [Less; LessEqual; LessDot; LessEqualDot; Greater; GreaterEqual; GreaterDot; GreaterEqualDot];
   [Concatenate];
   [Pipe];
   [Plus; PlusDot; Minus; MinusDot];
   [Star; StarDot; Slash; SlashDot; Percent]].
(** [t] is in row [n]. *)
Definition row (t : token) (n : nat) : Prop := exists ts, nth_error table n = Some ts /\ In t ts.

(** ** Trees *)
(** A source is operands with operators between them. *)
Inductive item (A : Type) := Value (a : A) | Op (o : spanned).
Arguments Value {A}. Arguments Op {A}.
Inductive tree (A : Type) := Leaf (a : A) | Node (o : spanned) (l r : tree A).
Arguments Leaf {A}. Arguments Node {A}.
Fixpoint in_order {A} (t : tree A) : list (item A) :=
  match t with
  | Leaf a => [Value a]
  | Node o l r => in_order l ++ Op o :: in_order r
  end.
(** Higher rows bind tighter, all operators associate to the left: an operator to the left of
    another one of the same row is below it. *)
Section Grouped.
Context {A : Type} (tighter : token -> token -> Prop) (same : token -> token -> Prop).
Fixpoint grouped (t : tree A) : Prop :=
  match t with
  | Leaf _ => True
  | Node o l r =>
      grouped l /\ grouped r /\
      match l with Leaf _ => True | Node o' _ _ => tighter (the_token o') (the_token o) \/ same (the_token o') (the_token o) end /\
      match r with Leaf _ => True | Node o' _ _ => tighter (the_token o') (the_token o) end
  end.
End Grouped.
Definition tighter (t u : token) : Prop := exists m n, row t m /\ row u n /\ (n < m)%nat.
Definition same_row (t u : token) : Prop := exists n, row t n /\ row u n.

(** ** What a tree stands for *)
(** Expressions: a chain of pipes is one pipeline; a binary operation spans its operands. *)
Fixpoint chain (t : tree expr) : option (tree expr * list (tree expr)) :=
  match t with
  | Node (_, Pipe, _) l r =>
      match chain l with
      | Some (first, others) => Some (first, others ++ [r])
      | None => Some (l, [r])
      end
  | _ => None
  end.
Inductive stands_for : tree expr -> expr -> Prop :=
  | stands_leaf e : stands_for (Leaf e) e
  | stands_binop start t end_ o l r x y : token_to_binop t = Some o -> stands_for l x -> stands_for r y ->
      stands_for (Node (start, t, end_) l r) (EBinOp (Span (s_start (location x)) (s_end (location y))) o start x y)
  | stands_pipeline t first others x ys : chain t = Some (first, others) -> stands_for first x ->
      Forall2 stands_for others ys -> stands_for t (EPipeline x ys).
(** Guards, constants, sizes. *)
Inductive is_operation {O} (find : token -> option O) : tree (operation O) -> operation O -> Prop :=
  | is_leaf e : is_operation find (Leaf e) e
  | is_node start t end_ o l r x y : find t = Some o -> is_operation find l x -> is_operation find r y ->
      is_operation find (Node (start, t, end_) l r)
        (BinaryOperator (Span (s_start (operation_location x)) (s_end (operation_location y))) o start x y).

(** ** Reading *)
(** The operands and operators at the start of the tokens, up to the first operand after which
    there is no operator. *)
Section Reads.
Context {A C : Type} (unit_ : C -> list spanned -> result (option (A * list spanned)))
  (check : A -> list spanned -> option parse_error) (operator : token -> Prop)
  (reject : spanned -> option parse_error) (context : token -> C).
Definition stops (ts : list spanned) : Prop := match ts with [] => True | s :: _ => ~ operator (the_token s) end.
Inductive reads : C -> list spanned -> list (item A) -> list spanned -> Prop :=
  | reads_last c ts a rest : unit_ c ts = Ok (Some (a, rest)) -> check a rest = None -> stops rest ->
      reads c ts [Value a] rest
  | reads_more c ts a o ts' items rest : unit_ c ts = Ok (Some (a, o :: ts')) -> check a (o :: ts') = None ->
      operator (the_token o) -> reject o = None -> reads (context (the_token o)) ts' items rest ->
      reads c ts (Value a :: Op o :: items) rest.
(** The error found instead; [last] is the last operator. *)
Inductive fails : C -> option spanned -> list spanned -> parse_error -> Prop :=
  | fails_unit c last ts e : unit_ c ts = Err e -> fails c last ts e
  | fails_missing c start t end_ ts : unit_ c ts = Ok None ->
      fails c (Some (start, t, end_)) ts (OpNakedRight (Span start end_))
  | fails_check c last ts a rest e : unit_ c ts = Ok (Some (a, rest)) -> check a rest = Some e -> fails c last ts e
  | fails_reject c last ts a o ts' e : unit_ c ts = Ok (Some (a, o :: ts')) -> check a (o :: ts') = None ->
      operator (the_token o) -> reject o = Some e -> fails c last ts e
  | fails_later c last ts a o ts' e : unit_ c ts = Ok (Some (a, o :: ts')) -> check a (o :: ts') = None ->
      operator (the_token o) -> reject o = None -> fails (context (the_token o)) (Some o) ts' e ->
      fails c last ts e.
End Reads.
(** An operand parser that answers, and does not give back more tokens than it got. *)
Definition sensible {A C} (unit_ : C -> list spanned -> result (option (A * list spanned))) : Prop :=
  forall c ts, match unit_ c ts with
               | Ok (Some (_, rest)) => (length rest <= length ts)%nat
               | Ok None | Err _ => True
               | Panic | OutOfFuel => False
               end.

(** ** The four places operators are read in *)
Definition any_operator (t : token) : Prop := exists n, row t n.
Definition guard_operator (t : token) : Prop := any_operator t /\ t <> Pipe.
Definition size_operator (t : token) : Prop := In t [Plus; Minus; Star; Slash; Percent].
(** A list that is followed by [=] was meant to be a pattern. *)
Definition meant_a_let (in_let : bool) (a : expr) (rest : list spanned) : option parse_error :=
  match a with
  | EList _ _ =>
      match rest with
      | (start, Equal, end_) :: _ => if in_let then None else Some (NoLetBinding (Span start end_))
      | _ => None
      end
  | _ => None
  end.
(** After a pipe an [echo] takes no operand. *)
Definition after (t : token) : unit_context := match t with Pipe => FollowingPipe | _ => OtherContext end.
Definition no_pipe (s : spanned) : option parse_error :=
  match s with (start, Pipe, end_) => Some (UnexpectedPipe (Span start end_)) | _ => None end.
Definition never_pipeline {C} (unit_ : C -> list spanned -> result (option (expr * list spanned))) : Prop :=
  forall c ts a rest, unit_ c ts = Ok (Some (a, rest)) -> match a with EPipeline _ _ => False | _ => True end.
