(** [ErlangCode.expression] makes the calls of the trees of [ErlangCodeTree]. *)
From Coq Require Import String NArith ZArith List Bool Lia.
From Verif Require Import Text Strings StringsSpec Erl ErlangSource ErlangSourceSpec ErlangTypes
  ErlangCode ErlangRun ErlangCodeSpec ErlangCodeTree.
Import ListNotations.
Local Open Scope nat_scope.
Local Open Scope list_scope.

(** ** Induction *)

Definition maybe {A} (P : A -> Prop) (o : option A) : Prop := match o with Some a => P a | None => True end.
Definition in_stmt (P : expr -> Prop) (s : stmt) : Prop :=
  match s with
  | Expression_ e | Let _ e => P e
  | LetAssert_ _ e _ m _ => P e /\ maybe P m
  end.
Section Induction.
Context (P : expr -> Prop).
Context (P_Int : forall z, P (Int z)) (P_String : forall w, P (String_ w))
  (P_Var : forall x v, P (Var x v))
  (P_Block : forall l, Forall (in_stmt P) l -> P (Block l))
  (P_NegateBool : forall e, P e -> P (NegateBool e)) (P_NegateInt : forall e, P e -> P (NegateInt e))
  (P_BinOp : forall op a b, P a -> P b -> P (BinOp op a b))
  (P_List : forall l tail, Forall P l -> maybe P tail -> P (List_ l tail))
  (P_Tuple : forall l, Forall P l -> P (Tuple l))
  (P_TupleIndex : forall e i, P e -> P (TupleIndex e i))
  (P_RecordAccess : forall e i, P e -> P (RecordAccess e i))
  (P_RecordUpdate : forall x e l f args, P e -> P f -> Forall P args -> P (RecordUpdate x e l f args))
  (P_Fn : forall args body pure, Forall (in_stmt P) body -> P (Fn args body pure))
  (P_Call : forall f args, P f -> Forall P args -> P (Call f args))
  (P_Pipeline : forall l last, Forall (fun s => P (snd s)) l -> P last -> P (Pipeline l last))
  (P_Failure : forall k l m, maybe P m -> P (Failure k l m))
  (P_Case : forall l clauses, Forall P l -> Forall (fun c => P (snd c)) clauses -> P (Case l clauses)).
Definition list_all {A} (Q : A -> Prop) (all : forall a, Q a) : forall l, Forall Q l :=
  fix list_all l := match l with [] => Forall_nil _ | a :: l => Forall_cons _ (all a) (list_all l) end.
Fixpoint expr_rect' (e : expr) : P e :=
  match e with
  | Int z => P_Int z
  | String_ w => P_String w
  | Var x v => P_Var x v
  | Block l => P_Block l (list_all _ stmt_rect' l)
  | NegateBool e => P_NegateBool e (expr_rect' e)
  | NegateInt e => P_NegateInt e (expr_rect' e)
  | BinOp op a b => P_BinOp op a b (expr_rect' a) (expr_rect' b)
  | List_ l tail =>
      P_List l tail (list_all _ expr_rect' l)
        (match tail as m return maybe P m with Some e => expr_rect' e | None => I end)
  | Tuple l => P_Tuple l (list_all _ expr_rect' l)
  | TupleIndex e i => P_TupleIndex e i (expr_rect' e)
  | RecordAccess e i => P_RecordAccess e i (expr_rect' e)
  | RecordUpdate x e l f args =>
      P_RecordUpdate x e l f args (expr_rect' e) (expr_rect' f) (list_all _ expr_rect' args)
  | Fn args body pure => P_Fn args body pure (list_all _ stmt_rect' body)
  | Call f args => P_Call f args (expr_rect' f) (list_all _ expr_rect' args)
  | Pipeline l last =>
      P_Pipeline l last (list_all _ (fun s => match s as s return P (snd s) with (_, e) => expr_rect' e end) l) (expr_rect' last)
  | Failure k l m => P_Failure k l m (match m as m return maybe P m with Some e => expr_rect' e | None => I end)
  | Case l clauses =>
      P_Case l clauses (list_all _ expr_rect' l)
        (list_all _ (fun c => match c as c return P (snd c) with (_, e) => expr_rect' e end) clauses)
  end
with stmt_rect' (s : stmt) : in_stmt P s :=
  match s as s return in_stmt P s with
  | Expression_ e => expr_rect' e
  | Let _ e => expr_rect' e
  | LetAssert_ _ e _ m _ =>
      conj (expr_rect' e) (match m as m return maybe P m with Some e => expr_rect' e | None => I end)
  end.
End Induction.

Section PatternInduction.
Context (P : pattern -> Prop).
Context (P_Discard : forall l, P (PDiscard l)) (P_Int : forall l z, P (PInt l z))
  (P_String : forall l w, P (PString l w)) (P_Variable : forall l x, P (PVariable l x))
  (P_Assign : forall l x p, P p -> P (PAssign l x p))
  (P_Tuple : forall l ps, Forall P ps -> P (PTuple l ps))
  (P_List : forall l ps tail, Forall P ps -> maybe P tail -> P (PList l ps tail))
  (P_Constructor : forall l c ps, Forall P ps -> P (PConstructor l c ps))
  (P_StringPrefix : forall l w a r rl, P (PStringPrefix l w a r rl)).
Fixpoint pattern_rect' (p : pattern) : P p :=
  match p with
  | PDiscard l => P_Discard l
  | PInt l z => P_Int l z
  | PString l w => P_String l w
  | PVariable l x => P_Variable l x
  | PAssign l x p => P_Assign l x p (pattern_rect' p)
  | PTuple l ps => P_Tuple l ps (list_all _ pattern_rect' ps)
  | PList l ps tail =>
      P_List l ps tail (list_all _ pattern_rect' ps)
        (match tail as m return maybe P m with Some e => pattern_rect' e | None => I end)
  | PConstructor l c ps => P_Constructor l c ps (list_all _ pattern_rect' ps)
  | PStringPrefix l w a r rl => P_StringPrefix l w a r rl
  end.
End PatternInduction.

(** ** Calls of trees *)

Definition carries {A B} (m : M A) (k : B -> A) (m' : M B) : Prop := forall s, m s = fmap k m' s.

Lemma carries_bind {A B A' B'} (m : M A) k (m' : M B) (f : A -> M A') k' (g : B -> M B') :
  carries m k m' -> (forall b s s', m' s = Some (b, s') -> carries (f (k b)) k' (g b)) ->
  carries (bind m f) k' (bind m' g).
Proof.
  intros H F s. unfold fmap, bind. rewrite (H s). unfold fmap.
  destruct (m' s) as [[b s']|] eqn:E; [|reflexivity]. exact (F b s s' E s').
Qed.
Lemma carries_ret {A B} (a : A) (k : B -> A) (b : B) : a = k b -> carries (ret a) k (ret b).
Proof. intros -> s. reflexivity. Qed.
Lemma carries_id {A} (m : M A) : carries m (fun a => a) m.
Proof. intro s. unfold fmap. destruct (m s) as [[]|]; reflexivity. Qed.
Lemma carries_concat_map {A B} (f : A -> M (list call)) (k : B -> list call) (g : A -> M B) l :
  Forall (fun a => carries (f a) k (g a)) l -> carries (concat_map f l) (flat_map k) (map_m g l).
Proof.
  induction 1 as [|a l H L IH]; [apply carries_ret; reflexivity|].
  cbn [concat_map map_m]. eapply carries_bind; [exact H|]. intros b ? ? _.
  eapply carries_bind; [exact IH|]. intros bs ? ? _. apply carries_ret. reflexivity.
Qed.
Lemma carries_ext {A B} (m : M A) (k k' : B -> A) m' : carries m k m' -> (forall b, k b = k' b) -> carries m k' m'.
Proof. intros H E s. rewrite (H s). unfold fmap. destruct (m' s) as [[]|]; [rewrite E|]; reflexivity. Qed.

Ltac step := eapply carries_bind; [|intros; cbv beta].
Ltac same := eapply carries_bind; [apply carries_id|intros; cbv beta].

Definition pattern_calls (r : node * aliases) : list call * aliases := (calls Pattern (fst r), snd r).
Definition patterns_calls (k : node -> list call) (r : list node * aliases) : list call * aliases := (flat_map k (fst r), snd r).

Lemma carries_row (f : pattern -> aliases -> M (list call * aliases)) k (row : list pattern -> aliases -> M (list call * aliases)) :
  (forall later, row [] later = ret ([], later)) ->
  (forall p l later s, row (p :: l) later s =
     bind (f p later) (fun first => bind (row l (snd first)) (fun rest =>
       ret (fst first ++ fst rest, snd rest))) s) ->
  forall l, Forall (fun p => forall later, carries (f p later) (fun r => (k (fst r), snd r)) (t_pattern p later)) l ->
  forall later, carries (row l later) (patterns_calls k) (in_turn t_pattern l later).
Proof.
  intros E C. induction l as [|p l IH]; intros H later; [rewrite E; apply carries_ret; reflexivity|].
  inversion H; subst. intro s. rewrite C. revert s. cbn [in_turn]. step; [apply H2|]. step; [apply IH; assumption|].
  apply carries_ret. reflexivity.
Qed.

Lemma cons_calls k t l : calls k (fold_right NCons t l) =
  flat_map (fun n => by_kind k cons_list_pattern cons_list :: calls k n) l ++ calls k t.
Proof. induction l as [|n l IH]; [reflexivity|]. cbn [fold_right flat_map calls]. rewrite IH, <- app_assoc. reflexivity. Qed.

Lemma pattern_carries p : forall later, carries (pattern_ p later) pattern_calls (t_pattern p later).
Proof.
  pattern p. apply pattern_rect'; clear p; intros; cbn [pattern_ t_pattern]; try (apply carries_ret; reflexivity).
  - same. apply carries_ret. reflexivity.
  - step; [apply H|]. same. apply carries_ret. reflexivity.
  - eapply carries_bind.
    { apply carries_row with (f := pattern_) (k := calls Pattern);
        [reflexivity|reflexivity|exact H]. }
    intros. apply carries_ret. reflexivity.
  - eapply carries_bind.
    { apply carries_row with (f := fun p later => bind (pattern_ p later) (fun r => ret (cons_list_pattern :: fst r, snd r)))
        (k := fun n => cons_list_pattern :: calls Pattern n); [reflexivity| |].
      - intros. unfold bind, ret. destruct (pattern_ p later0 s) as [[]|]; reflexivity.
      - eapply Forall_impl; [|exact H]. cbv beta. intros p' H' later' s. unfold bind, fmap.
        rewrite (H' later' s). unfold fmap. destruct (t_pattern p' later' s) as [[]|]; reflexivity. }
    intros. destruct tail as [p|].
    + step; [apply H0|]. apply carries_ret. unfold pattern_calls, patterns_calls. cbn [fst snd].
      rewrite cons_calls. reflexivity.
    + apply carries_ret. unfold pattern_calls, patterns_calls. cbn [fst snd].
      rewrite cons_calls. reflexivity.
  - destruct ps as [|p ps]; [apply carries_ret; reflexivity|].
    eapply carries_bind.
    { apply (carries_row pattern_ (calls Pattern)
        (fix patterns l later :=
           match l with
           | [] => ret ([], later)
           | p :: l => bind (pattern_ p later) (fun first => bind (patterns l (snd first)) (fun rest =>
               ret (fst first ++ fst rest, snd rest)))
           end)) with (l := p :: ps); [reflexivity|reflexivity|exact H]. }
    intros. apply carries_ret. reflexivity.
  - eapply carries_bind with (k := calls Pattern).
    { destruct r; [same; apply carries_ret; reflexivity|apply carries_ret; reflexivity]. }
    intros. apply carries_ret. unfold pattern_calls. cbn [fst snd calls flat_map by_kind string_node].
    rewrite ! app_nil_r. cbn. rewrite <- app_assoc. reflexivity.
Qed.
Lemma clause_patterns_carries l : carries (clause_patterns l) pattern_calls (t_clause_patterns l).
Proof.
  assert (H : carries
    (bind ((fix each l later :=
              match l with
              | [] => ret ([], later)
              | p :: l => bind (pattern_ p later) (fun first => bind (each l (snd first)) (fun rest =>
                  ret (fst first ++ fst rest, snd rest)))
              end) l ([] : aliases)) (fun inner => ret ([start_tuple_pattern] ++ fst inner ++ [end_tuple_pattern], snd inner)))
    pattern_calls (bind (in_turn t_pattern l []) (fun inner => ret (NTuple (fst inner), snd inner)))).
  { eapply carries_bind.
    { apply carries_row with (f := pattern_) (k := calls Pattern); [reflexivity|reflexivity|].
      apply Forall_forall. intros p _ later. apply pattern_carries. }
    intros. apply carries_ret. reflexivity. }
  destruct l as [|p [|q l]]; [exact H|apply pattern_carries|exact H].
Qed.
Lemma assignments_carries later : carries (pattern_assignments later) (flat_map (calls Expression)) (t_assignments later).
Proof.
  apply carries_concat_map. apply Forall_forall. intros (x & l & w) _. same. apply carries_ret. reflexivity.
Qed.

Lemma guard_carries g : forall a, carries (clause_guard g a) (calls Expression) (t_guard g a).
Proof.
  induction g; intro a; cbn [clause_guard t_guard]; try (apply carries_ret; reflexivity).
  - destruct (get name a) as [[l w]|]; [apply carries_ret; reflexivity|]. same. apply carries_ret. reflexivity.
  - apply IHg.
  - step; [apply IHg|]. apply carries_ret. reflexivity.
  - destruct operator; cbn [guard_operator guard_symbol];
      (step; [apply IHg1|]; step; [apply IHg2|]; apply carries_ret; try reflexivity).
    cbn [calls flat_map by_kind]. cbn. rewrite <- ! app_assoc. cbn. rewrite <- ! app_assoc. reflexivity.
  - step; [apply IHg|]. apply carries_ret. cbn. rewrite app_nil_r. reflexivity.
  - step; [apply IHg|]. apply carries_ret. cbn. rewrite app_nil_r. reflexivity.
Qed.

Lemma bind_some {A B} (m : M A) (f : A -> M B) s b s' :
  bind m f s = Some (b, s') -> exists a s1, m s = Some (a, s1) /\ f a s1 = Some (b, s').
Proof. unfold bind. destruct (m s) as [[a s1]|]; [|discriminate]. intro H. exists a, s1. auto. Qed.
Lemma ret_some {A} (a b : A) s s' : ret a s = Some (b, s') -> a = b /\ s = s'.
Proof. intro H. injection H. auto. Qed.
Ltac run H :=
  match type of H with
  | bind _ _ _ = Some _ =>
      let a := fresh "r" in let s := fresh "s" in let E := fresh "E" in
      apply bind_some in H; destruct H as (a & s & E & H); cbv beta in H; run H
  | ret _ _ = Some _ => apply ret_some in H; destruct H as [<- <-]
  | _ => idtac
  end.

Section Calls.
Context (c : context).

Lemma one_node e : forall s ns s', t_expression c e s = Some (ns, s') ->
  needs_begin_end_wrapping e = false -> exists n, ns = [n].
Proof.
  pattern e. apply expr_rect'; clear e; intros; cbn [t_expression t_expression_] in *;
    try (match goal with E : bind _ _ _ = Some _ |- _ => run E; eauto end; fail);
    try (match goal with E : ret _ _ = Some _ |- _ => run E; eauto end; fail); try discriminate.
  - assert (forall s, (bind (t_body c (t_expression c) l) (fun inner => ret [NBlock inner])) s = Some (ns, s') -> exists n, ns = [n]).
    { intros s0 E. run E. eauto. }
    destruct l as [|[e| |] [|]]; eauto. run H0. eauto.
  - destruct op; cbn [t_operator plain_symbol needs_begin_end_wrapping] in *; unfold t_division in *;
      try (destruct (how_to_divide a b) as [| | |[]]; try discriminate); run H1; eauto.
  - destruct x; [discriminate|]. run H2. eauto.
Qed.

Lemma sym_text op s : plain_symbol op = Some s -> plain_operator op = Some (operator_text s).
Proof. destruct op; intro H; inversion H; reflexivity. Qed.

Lemma builder_carries x n : carries (record_builder_anonymous_function x n) (calls Expression) (t_record_builder x n).
Proof.
  unfold record_builder_anonymous_function, t_record_builder. same. apply carries_ret.
  destruct b as [|y b]; [reflexivity|]. cbn [calls flat_map by_kind map]. rewrite app_nil_r. cbn.
  do 4 f_equal. assert (E : map variable b = flat_map (calls Expression) (map NVar b)).
  { clear. induction b; cbn; congruence. }
  rewrite E. rewrite <- app_assoc. reflexivity.
Qed.
Lemma var_carries x v : carries (var c x v) (calls Expression) (t_var c x v).
Proof.
  destruct v as [l|m f a [[em ef]|] p|n [k|]]; cbn [var t_var]; try (apply carries_ret; reflexivity).
  - same. apply carries_ret. reflexivity.
  - apply carries_ret. destruct (text_eqb m (module_name c)); reflexivity.
  - apply builder_carries.
Qed.

Definition K : expr -> Prop := fun e => carries (expression c e) (flat_map (calls Expression)) (t_expression c e).

Lemma maybe_carries e : K e ->
  carries (maybe_block_expr (expression c) e) (calls Expression) (t_maybe (t_expression c) e).
Proof.
  intro H. unfold maybe_block_expr, t_maybe. eapply carries_bind; [exact H|]. cbv beta. intros ns s s' E.
  apply carries_ret. destruct (needs_begin_end_wrapping e) eqn:W; [reflexivity|].
  destruct (one_node e s ns s' E W) as [n ->]. cbn. apply app_nil_r.
Qed.
Lemma maybes_carry l : Forall K l ->
  carries (concat_map (maybe_block_expr (expression c)) l) (flat_map (calls Expression)) (map_m (t_maybe (t_expression c)) l).
Proof.
  intro H. apply carries_concat_map. eapply Forall_impl; [|exact H]. intros. apply maybe_carries. assumption.
Qed.
Lemma let_carries p e : K e -> carries (let_ (expression c) e p) (calls Expression) (t_let (t_expression c) e p).
Proof.
  intro H. step; [apply pattern_carries|]. step; [apply maybe_carries, H|]. apply carries_ret. reflexivity.
Qed.
Lemma message_carries k l m : maybe K m ->
  carries (start_runtime_error c (expression c) k l m)
    (fun n => [start_remote_call (str "erlang") (str "error"); start_map;
        map_field; atom (str "gleam_error"); atom (error_kind_name k);
        map_field; atom (str "message")] ++ calls Expression n ++
       [map_field; atom (str "file"); string_ (module_source_path c);
        map_field; atom (str "module"); string_ (module_name c);
        map_field; atom (str "function"); string_ (function_name c);
        map_field; atom (str "line"); int (Z.of_N (line_number c (fst l)))]) (t_message (t_expression c) k m).
Proof.
  intro H. unfold start_runtime_error.
  intro s. unfold bind.
  assert (E : carries match m with Some message => maybe_block_expr (expression c) message
          | None => ret [string_ (default_error_message k)] end (calls Expression) (t_message (t_expression c) k m)).
  { destruct m; [apply maybe_carries, H|apply carries_ret; reflexivity]. }
  rewrite (E s). unfold fmap.
  destruct (t_message (t_expression c) k m s) as [[n s']|]; reflexivity.
Qed.
Lemma body_carries l : Forall (in_stmt K) l ->
  carries (statement_sequence c (expression c) l) (flat_map (calls Expression)) (t_body c (t_expression c) l).
Proof.
  induction 1 as [|st l H L IH]; [apply carries_ret; reflexivity|].
  destruct st as [e|p e|p e e_end m loc]; cbn [in_stmt] in H; cbn [statement_sequence t_body].
  - step; [exact H|]. step; [exact IH|]. apply carries_ret. rewrite flat_map_app. reflexivity.
  - step; [apply let_carries, H|]. step; [exact IH|]. apply carries_ret. reflexivity.
  - destruct H as [He Hm]. destruct (always_matches p).
    { step; [apply let_carries, He|]. step; [exact IH|]. apply carries_ret. reflexivity. }
    step; [apply maybe_carries, He|].
    eapply carries_bind with (k := fun cl : node * (option node * list node) =>
      [start_case_clause] ++ calls Pattern (fst cl) ++ [end_clause_pattern; end_clause_guards] ++
      flat_map (calls Expression) (snd (snd cl)) ++ [end_clause_body]).
    { destruct l as [|st l].
      - same. step; [apply pattern_carries|]. apply carries_ret. cbn. rewrite <- app_assoc. reflexivity.
      - step; [apply pattern_carries|]. step; [apply assignments_carries|]. step; [exact IH|].
        apply carries_ret. unfold pattern_calls. cbn [fst snd]. rewrite flat_map_app, <- app_assoc. reflexivity. }
    intros cl s1 s2 E.
    assert (G : fst (snd cl) = None). { destruct l; run E; reflexivity. }
    clear E. destruct cl as (pn & g & bn). cbn [fst snd] in G. subst g. unfold let_assert_failure.
    intro s0. unfold bind at 1 2. cbn [fmap]. unfold fmap, bind at 2.
    destruct (new_generated_variable s0) as [[x s3]|]; [|reflexivity]. unfold bind. cbn [fst snd].
    rewrite (message_carries LetAssert loc m Hm s3). unfold fmap.
    destruct (t_message (t_expression c) LetAssert m s3) as [[n s4]|]; [|reflexivity]. unfold ret.
    cbn [calls flat_map by_kind failure_clause error_node string_node app fst snd].
    repeat rewrite <- ! app_assoc. cbn [app]. repeat rewrite <- ! app_assoc. cbn [app].
    unfold end_runtime_error. cbn. repeat (rewrite <- ? app_assoc; progress cbn [app]). rewrite <- ? app_assoc. cbn [app]. reflexivity.
Qed.

Lemma call_carries f args : K f -> Forall K args ->
  carries (call_ c (expression c) f args) (calls Expression) (t_call c (t_expression c) f args).
Proof.
  intros F A. unfold call_, t_call. destruct (how_to_call f) as [n|m n|].
  - destruct args; [apply carries_ret; reflexivity|]. step; [apply maybes_carry, A|]. apply carries_ret.
    cbn. rewrite ? app_nil_r. reflexivity.
  - step; [apply maybes_carry, A|]. apply carries_ret. destruct (text_eqb m (module_name c)); reflexivity.
  - step; [apply maybe_carries, F|]. step; [apply maybes_carry, A|]. apply carries_ret. reflexivity.
Qed.

Lemma division_carries a b (t : text) s : K a -> K b -> t = operator_text s ->
  carries (int_division (expression c) a b t) (flat_map (calls Expression)) (t_division (t_expression c) a b s).
Proof.
  intros A B ->. unfold int_division, t_division. destruct (how_to_divide a b) as [| | |[]].
  - step; [apply maybe_carries, A|]. step; [apply maybe_carries, B|]. apply carries_ret. cbn.
    rewrite app_nil_r. reflexivity.
  - apply carries_ret. reflexivity.
  - step; [apply maybe_carries, A|]. apply carries_ret. reflexivity.
  - step; [apply maybe_carries, B|]. same. step; [apply maybe_carries, A|]. apply carries_ret.
    cbn. repeat (rewrite <- ? app_assoc; progress cbn [app]). rewrite <- ? app_assoc. cbn [app]. rewrite ? app_nil_r. reflexivity.
  - same. step; [apply maybe_carries, A|]. step; [apply maybe_carries, B|]. same. apply carries_ret.
    cbn. repeat (rewrite <- ? app_assoc; progress cbn [app]). rewrite <- ? app_assoc. cbn [app]. rewrite ? app_nil_r. reflexivity.
Qed.
Lemma operator_carries op a b : K a -> K b ->
  carries (binary_operator_ (expression c) op a b) (flat_map (calls Expression)) (t_operator (t_expression c) op a b).
Proof.
  intros A B. unfold binary_operator_, t_operator.
  assert (D := division_carries a b).
  assert (P : forall s, carries (bind (maybe_block_expr (expression c) a) (fun l =>
      bind (maybe_block_expr (expression c) b) (fun r => ret ([binary_operator (operator_text s)] ++ l ++ r))))
      (flat_map (calls Expression)) (bind (t_maybe (t_expression c) a) (fun l => bind (t_maybe (t_expression c) b) (fun r => ret [NBinary s l r])))).
  { intro s. step; [apply maybe_carries, A|]. step; [apply maybe_carries, B|]. apply carries_ret. cbn.
    rewrite ? app_nil_r. reflexivity. }
  destruct op; cbn [plain_operator plain_symbol];
    try (match goal with |- carries _ _ (bind _ (fun l => bind _ (fun r => ret [NBinary ?s l r]))) => exact (P s) end).
  - apply D; auto.
  - apply D; auto.
  - unfold string_concatenate, string_concatenate_argument. intro s. unfold fmap, bind.
    rewrite (maybe_carries a A s). unfold fmap.
    destruct (t_maybe (t_expression c) a s) as [[l s1]|]; [|reflexivity]. cbn [ret].
    unfold ret. rewrite (maybe_carries b B s1). unfold fmap.
    destruct (t_maybe (t_expression c) b s1) as [[r s2]|]; [|reflexivity].
    cbn. unfold literal_specifier. rewrite <- ! app_assoc. cbn. rewrite <- ! app_assoc. cbn. reflexivity.
Qed.

Lemma branch_carries ps g e : K e -> (forall l, e = Block l -> Forall (in_stmt K) l) ->
  carries (clause_branch c (expression c) ps g e)
    (fun '(p, (guard, body)) =>
        [start_case_clause] ++ calls Pattern p ++ [end_clause_pattern] ++
        match guard with
        | Some g => [start_clause_guard] ++ calls Expression g ++ [end_clause_guard]
        | None => []
        end ++ [end_clause_guards] ++ flat_map (calls Expression) body ++ [end_clause_body])
    (t_branch c (t_expression c) ps g e).
Proof.
  intros H B. unfold clause_branch, t_branch. step; [apply clause_patterns_carries|].
  eapply carries_bind with (k := fun g => match g with
        | Some g => [start_clause_guard] ++ calls Expression g ++ [end_clause_guard]
        | None => []
        end).
  { destruct g; [step; [apply guard_carries|]|]; apply carries_ret; reflexivity. }
  intros. step; [apply assignments_carries|]. eapply carries_bind with (k := flat_map (calls Expression)).
  { destruct e; try exact H. apply body_carries. apply B. reflexivity. }
  intros. apply carries_ret. unfold pattern_calls. cbn [fst snd]. rewrite flat_map_app, <- ! app_assoc. reflexivity.
Qed.

Definition clause_calls : node * (option node * list node) -> list call :=
  fun '(p, (guard, body)) =>
        [start_case_clause] ++ calls Pattern p ++ [end_clause_pattern] ++
        match guard with
        | Some g => [start_clause_guard] ++ calls Expression g ++ [end_clause_guard]
        | None => []
        end ++ [end_clause_guards] ++ flat_map (calls Expression) body ++ [end_clause_body].
Lemma case_carries l clauses : Forall K l ->
  Forall (fun c => K (snd c) /\ forall l, snd c = Block l -> Forall (in_stmt K) l) clauses ->
  carries (case c (expression c) l clauses) (calls Expression) (t_case c (t_expression c) l clauses).
Proof.
  intros L C. unfold case, t_case. eapply carries_bind with (k := calls Expression).
  { assert (T : carries (bind (concat_map (maybe_block_expr (expression c)) l) (fun inner => ret ([start_tuple] ++ inner ++ [end_tuple])))
        (calls Expression) (bind (map_m (t_maybe (t_expression c)) l) (fun inner => ret (NTuple inner)))).
    { step; [apply maybes_carry, L|]. apply carries_ret. reflexivity. }
    destruct l as [|e [|]]; [exact T| |exact T]. apply maybe_carries. inversion L; assumption. }
  intros n s s' _. eapply carries_bind with (k := flat_map (flat_map clause_calls)).
  { apply carries_concat_map. eapply Forall_impl; [|exact C]. cbv beta.
    intros (((ps & alts) & g) & e) (He & Hb). cbn [snd] in *. unfold t_clause. same.
    step; [apply branch_carries; assumption|].
    step; [apply carries_concat_map with (k := clause_calls)|].
    - apply Forall_forall. intros ps' _. same. apply branch_carries; assumption.
    - apply carries_ret. destruct b0 as (? & ? & ?). reflexivity. }
  intros. apply carries_ret. cbn [calls]. rewrite <- flat_map_concat_map with (f := fun x => x) || idtac.
  assert (E : flat_map clause_calls (concat b) = flat_map (flat_map clause_calls) b).
  { clear. induction b as [|x b IH]; [reflexivity|]. cbn [concat flat_map]. rewrite flat_map_app, IH. reflexivity. }
  unfold clause_calls in E at 1. rewrite E. reflexivity.
Qed.

Lemma expression_carries_ e : K e /\ forall l, e = Block l -> Forall (in_stmt K) l.
Proof.
  pattern e. apply expr_rect'; clear e; intros.
  1,2,3: split; [|discriminate].
  - apply carries_ret. reflexivity.
  - apply carries_ret. reflexivity.
  - unfold K. cbn [expression expression_ t_expression t_expression_]. intro s. unfold fmap, bind.
    rewrite (var_carries x v s). unfold fmap. destruct (t_var c x v s) as [[]|]; [|reflexivity]. cbn. rewrite ? app_nil_r. reflexivity.
  - assert (L : Forall (in_stmt K) l).
    { eapply Forall_impl; [|exact H]. intros [e|p e|p e ee m loc]; cbn; [tauto|tauto|]. intros ((? & _) & M). split; [assumption|].
      destruct m; [apply M|exact I]. }
    split; [|intros l' E; injection E as <-; exact L].
    unfold K. cbn [expression expression_ t_expression t_expression_].
    assert (B : carries (bind (statement_sequence c (expression c) l) (fun inner => ret ([start_block] ++ inner ++ [end_block])))
      (flat_map (calls Expression)) (bind (t_body c (t_expression c) l) (fun inner => ret [NBlock inner]))).
    { step; [apply body_carries, L|]. apply carries_ret. cbn. rewrite ? app_nil_r. reflexivity. }
    destruct l as [|[e|p e|p e ee m loc] [|]]; try exact B.
    inversion L; subst. intro s. unfold fmap, bind. rewrite (maybe_carries e H2 s). unfold fmap.
    destruct (t_maybe _ e s) as [[]|]; [|reflexivity]. cbn. rewrite ? app_nil_r. reflexivity.
  - destruct H as [H _]. split; [|discriminate]. step; [apply maybe_carries, H|]. apply carries_ret. cbn. rewrite ? app_nil_r. reflexivity.
  - destruct H as [H _]. split; [|discriminate]. step; [apply maybe_carries, H|]. apply carries_ret. cbn. rewrite ? app_nil_r. reflexivity.
  - split; [|discriminate]. apply operator_carries; tauto.
  - split; [|discriminate]. unfold K. cbn [expression expression_ t_expression t_expression_].
    eapply carries_bind with (k := flat_map (fun n => cons_list :: calls Expression n)).
    { apply carries_concat_map. eapply Forall_impl; [|exact H]. intros a [A _].
      intro s. unfold bind. rewrite (maybe_carries a A s). unfold fmap.
      destruct (t_maybe _ a s) as [[]|]; reflexivity. }
    intros ns s1 s2 _. eapply carries_bind with (k := calls Expression).
    { destruct tail; [apply maybe_carries, H0|apply carries_ret; reflexivity]. }
    intros. apply carries_ret. cbn [flat_map]. rewrite cons_calls, app_nil_r. reflexivity.
  - split; [|discriminate]. step; [apply maybes_carry; eapply Forall_impl; [|exact H]; intros ? []; assumption|].
    apply carries_ret. cbn. rewrite ? app_nil_r. reflexivity.
  - destruct H as [H _]. split; [|discriminate]. step; [apply maybe_carries, H|]. apply carries_ret. cbn. rewrite ? app_nil_r. reflexivity.
  - destruct H as [H _]. split; [|discriminate]. step; [apply maybe_carries, H|]. apply carries_ret. cbn. rewrite ? app_nil_r. reflexivity.
  - split; [|discriminate]. destruct H as [E _], H0 as [F _].
    assert (A : Forall K args) by (eapply Forall_impl; [|exact H1]; intros ? []; assumption).
    unfold K. cbn [expression expression_ t_expression t_expression_]. destruct x as [x|].
    + eapply carries_bind with (k := calls Expression).
      { unfold t_bind. same. step; [apply maybe_carries, E|]. apply carries_ret. reflexivity. }
      intros. step; [apply call_carries; assumption|]. apply carries_ret. cbn. rewrite ? app_nil_r. reflexivity.
    + intro s. unfold bind at 1. cbn [ret]. unfold ret at 1. generalize s. change (carries (bind (call_ c (expression c) f args) (fun rest => ret ([] ++ rest))) (flat_map (calls Expression))
        (bind (t_call c (t_expression c) f args) (fun rest => ret [rest]))).
      step; [apply call_carries; assumption|]. apply carries_ret. cbn. rewrite ? app_nil_r. reflexivity.
  - split; [|discriminate].
    assert (L : Forall (in_stmt K) body).
    { eapply Forall_impl; [|exact H]. intros [e|p e|p e ee m loc]; cbn; [tauto|tauto|]. intros ((? & _) & M). split; [assumption|].
      destruct m; [apply M|exact I]. }
    unfold K. cbn [expression expression_ t_expression t_expression_].
    same. same. step; [apply body_carries, L|]. same. apply carries_ret. cbn. rewrite ? app_nil_r. reflexivity.
  - split; [|discriminate]. destruct H as [F _].
    assert (A : Forall K args) by (eapply Forall_impl; [|exact H0]; intros ? []; assumption).
    unfold K. cbn [expression expression_ t_expression t_expression_].
    intro s. unfold fmap, bind. rewrite (call_carries f args F A s). unfold fmap.
    destruct (t_call _ _ f args s) as [[]|]; [|reflexivity]. cbn. rewrite ? app_nil_r. reflexivity.
  - split; [|discriminate]. destruct H0 as [F _]. unfold K. cbn [expression expression_ t_expression t_expression_].
    unfold pipeline. eapply carries_bind with (k := flat_map (calls Expression)).
    { apply carries_concat_map. eapply Forall_impl; [|exact H]. intros ((x & loc) & e) [E _]. cbn [snd] in E.
      unfold t_bind. same. step; [apply maybe_carries, E|]. apply carries_ret. reflexivity. }
    intros. step; [exact F|]. apply carries_ret. rewrite flat_map_app. reflexivity.
  - split; [|discriminate]. unfold K. cbn [expression expression_ t_expression t_expression_].
    step; [apply message_carries; destruct m; [apply H|exact I]|]. apply carries_ret.
    cbn [calls flat_map by_kind error_node string_node app fst snd end_runtime_error].
    rewrite <- ? app_assoc. cbn [app]. rewrite <- ? app_assoc. cbn. rewrite ? app_nil_r. rewrite <- ? app_assoc. reflexivity.
  - split; [|discriminate]. unfold K. cbn [expression expression_ t_expression t_expression_].
    intro s. unfold fmap, bind. rewrite (case_carries l clauses) with (s := s).
    + unfold fmap. destruct (t_case _ _ l clauses s) as [[]|]; [|reflexivity]. unfold ret. cbn [flat_map]. rewrite ? app_nil_r. reflexivity.
    + eapply Forall_impl; [|exact H]. intros ? []; assumption.
    + exact H0.
Qed.
Lemma expression_carries e : carries (expression c e) (flat_map (calls Expression)) (t_expression c e).
Proof. apply expression_carries_. Qed.
End Calls.

Lemma in_stmt_all (P : expr -> Prop) : (forall e, P e) -> forall l, Forall (in_stmt P) l.
Proof. intros H. induction l as [|[e|p e|p e ee m loc]]; constructor; cbn; auto. split; auto. destruct m; cbn; auto. Qed.

Lemma function_carries m path lines f :
  module_function m path lines f = option_map top_calls (t_function m path lines f).
Proof.
  unfold module_function, t_function. set (c := Context m path (f_name f) lines).
  assert (H : carries
    (bind (function_arguments_names (f_arguments f)) (fun xs =>
     bind (statement_sequence c (expression c) (f_body f)) (fun body =>
       ret ([start_function (escape_erlang_existing_name (f_name f)) (N.of_nat (length (f_arguments f))) xs] ++ body ++ [end_function]))))
    top_calls
    (bind (function_arguments_names (f_arguments f)) (fun xs =>
     bind (t_body c (t_expression c) (f_body f)) (fun body => ret (Function_ (escape_erlang_existing_name (f_name f)) xs body))))).
  { eapply carries_bind; [apply carries_id|]. cbv beta. intros xs s s' E.
    step; [apply body_carries, in_stmt_all, expression_carries|]. apply carries_ret. cbn [top_calls].
    do 3 f_equal. revert s xs s' E. clear. induction (f_arguments f) as [|[l|x l] args IH]; intros s xs s' E; cbn [function_arguments_names] in E; run E.
    - reflexivity.
    - cbn [length]. rewrite ! Nat2N.inj_succ. f_equal. eapply IH. eassumption.
    - cbn [length]. rewrite ! Nat2N.inj_succ. f_equal. eapply IH. eassumption. }
  specialize (H (State [] [] 0)). unfold fmap in H. rewrite H.
  match goal with |- context [match ?x with Some _ => _ | None => _ end] => destruct x as [[]|]; reflexivity end.
Qed.
