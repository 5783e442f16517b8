(** What the builder of Erlang source writes for a tree: a list of tokens with their spelling, and
    of white space. *)
From Coq Require Import String NArith ZArith List Bool Lia ZifyBool.
From Verif Require Import Text StringsSpec Erl ErlangSource ErlangSourceSpec.
Import ListNotations.
Local Open Scope nat_scope.
Local Open Scope list_scope.

Definition lexemes := list (option token * text).
Definition text_of : lexemes -> text := flat_map snd.
Lemma text_of_app a b : text_of (a ++ b) = text_of a ++ text_of b.
Proof. apply flat_map_app. Qed.

Definition spelling (s : sym) : text :=
  match s with
  | LParen => str "(" | RParen => str ")" | LBracket => str "[" | RBracket => str "]"
  | LBrace => str "{" | RBrace => str "}" | LBin => str "<<" | RBin => str ">>"
  | Comma => str "," | Semicolon => str ";" | Colon => str ":" | ColonColon => str "::"
  | Arrow => str "->" | FatArrow => str "=>" | Bar => str "|" | Hash => str "#" | Equals => str "="
  | KCase => str "case" | KOf => str "of" | KEnd => str "end" | KWhen => str "when"
  | KBegin => str "begin" | KFun => str "fun"
  | s => operator_text s
  end.
Definition sy (s : sym) : lexemes := [(Some (TSym s), spelling s)].
Definition sp : lexemes := [(None, [32%N])].
Definition nl (i : nat) : lexemes := (None, [10%N]) :: repeat (None, [32%N]) i.
Definition var (x : text) : lexemes := [(Some (TVar x), x)].
Definition atm (a : text) : lexemes := [(Some (TAtom a), quote_atom_name a)].
Definition num (n : N) : lexemes := [(Some (TInt n), decimal n)].
Definition dot : lexemes := [(Some TDot, str ".")].
Definition lex_int (z : Z) : lexemes :=
  (if (z <? 0)%Z then sy Minus else []) ++ num (Z.abs_N z).
Definition lex_float (f : float) : lexemes :=
  let zero := zeros (whole f) && zeros (fraction f) in
  let fr := if zeros (fraction f) then str "0" else fraction f in
  (if negative f then sy Minus else if zero then sy Plus else []) ++
  [(Some (TFloat (whole f) fr), whole f ++ str "." ++ fr)].
Definition lex_string (sv : bool) (written value : text) : lexemes :=
  let literal := [34%N] ++ escape_literal_string_content written ++ [34%N] in
  [if sv then (Some (TString value), literal) else (Some (TBinary value), 126%N :: literal)].
Definition lex_specifier (s : specifier) : lexemes :=
  match s with
  | Unit n => (Some (TAtom (str "unit")), str "unit") :: sy Colon ++ num n
  | s => [(Some (TAtom (specifier_string s)), specifier_string s)]
  end.

Definition parens (b : bool) (l : lexemes) : lexemes := if b then sy LParen ++ l ++ sy RParen else l.
Fixpoint items (sep pre : lexemes) (first : bool) (l : list lexemes) : lexemes :=
  match l with
  | [] => []
  | x :: l => (if first then [] else sep) ++ pre ++ x ++ items sep pre false l
  end.
Definition comma : lexemes := sy Comma ++ sp.
Definition lex_specifiers (l : list specifier) : lexemes :=
  match sort_specifiers l with
  | [] => []
  | l => sy Slash ++ items (sy Minus) [] true (map lex_specifier l)
  end.

(** Written without parentheses in a segment. *)
Definition simple (k : kind) (n : node) : bool :=
  match n with
  | NVar _ | NDiscard | NInt _ | NFloat _ | NString _ _ => true
  | NBits _ => match k with Expression => true | Pattern => false end
  | _ => false
  end.
Definition is_call (n : node) : bool :=
  match n with NCall _ _ | NRemote _ _ _ => true | _ => false end.
Definition is_list (n : node) : bool := match n with NNil | NCons _ _ => true | _ => false end.

(** [tail]: after an element of a list; [sv]: the value of a segment; [wrap]: an operand. *)
Fixpoint layout (tail sv wrap : bool) (i : nat) (k : kind) (n : node) : lexemes :=
  let it :=
    match n with
    | NVar x => var x
    | NDiscard => var (str "_")
    | NInt z => lex_int z
    | NFloat f => lex_float f
    | NString written value => lex_string sv written value
    | NAtom a => atm a
    | NTuple l => sy LBrace ++ items comma [] true (map (layout false false false i k) l) ++ sy RBrace
    | NNil => (if tail then [] else sy LBracket) ++ sy RBracket
    | NCons h t =>
        (if tail then comma else sy LBracket) ++ layout false false false i k h ++
        layout true false false i k t
    | NBits l =>
        sy LBin ++ items comma [] true (map (fun '(v, (size, specifiers)) =>
          parens (negb (simple k v)) (layout false true false i k v) ++
          match size with
          | Some n => sy Colon ++ parens (negb (simple Expression n)) (layout false false false i Expression n)
          | None => []
          end ++ lex_specifiers specifiers) l) ++ sy RBin
    | NMap l =>
        sy Hash ++ sy LBrace ++ items (sy Comma) (nl (i + 4)) true (map (fun '(a, b) =>
          layout false false false (i + 4) k a ++ sp ++ sy FatArrow ++ sp ++
          layout false false false (i + 4) k b) l) ++ nl i ++ sy RBrace
    | NBlock l =>
        sy KBegin ++ items (sy Comma) (nl (i + 4)) true (map (layout false false false (i + 4) k) l) ++
        nl i ++ sy KEnd
    | NCall f l =>
        parens (is_call f) (layout false false false i k f) ++ sy LParen ++
        items comma [] true (map (layout false false false i k) l) ++ sy RParen
    | NRemote m f l =>
        atm m ++ sy Colon ++ atm f ++ sy LParen ++
        items comma [] true (map (layout false false false i k) l) ++ sy RParen
    | NUnary op n => sy op ++ sp ++ layout false sv true i k n
    | NBinary op a b =>
        parens wrap (layout false false true i k a ++ sp ++ sy op ++ sp ++ layout false false true i k b)
    | NMatch p n => layout false false false i Pattern p ++ sp ++ sy Equals ++ sp ++ layout false sv false i k n
    | NFunRef m f a =>
        sy KFun ++ sp ++ match m with Some m => atm m ++ sy Colon | None => [] end ++
        atm f ++ sy Slash ++ num a
    | NFun l body =>
        sy KFun ++ sy LParen ++ items comma [] true (map var l) ++ sy RParen ++ sp ++ sy Arrow ++
        items (sy Comma) (nl (i + 4)) true (map (layout false false false (i + 4) k) body) ++
        nl i ++ sy KEnd
    | NCase n l =>
        sy KCase ++ sp ++ layout false false false i k n ++ sp ++ sy KOf ++
        items (sy Semicolon ++ nl 0) (nl (i + 4)) true (map (fun '(p, (guard, body)) =>
          layout false false false (i + 4) Pattern p ++
          match guard with
          | Some g => sp ++ sy KWhen ++ sp ++ layout false false false (i + 4) Expression g
          | None => []
          end ++ sp ++ sy Arrow ++
          items (sy Comma) (nl (i + 4 + 4)) true (map (layout false false false (i + 4 + 4) k) body)) l) ++
        nl i ++ sy KEnd
    end in
  if tail && negb (is_list n) then sp ++ sy Bar ++ sp ++ it ++ sy RBracket else it.

Fixpoint type_layout (t : tree) : lexemes :=
  match t with
  | YVar x => var x
  | YAtom a => atm a
  | YNamed a l => atm a ++ sy LParen ++ items comma [] true (map type_layout l) ++ sy RParen
  | YRemote m a l =>
      atm m ++ sy Colon ++ atm a ++ sy LParen ++ items comma [] true (map type_layout l) ++ sy RParen
  | YTuple l => sy LBrace ++ items comma [] true (map type_layout l) ++ sy RBrace
  | YFun l t =>
      sy KFun ++ sy LParen ++ sy LParen ++ items comma [] true (map type_layout l) ++ sy RParen ++
      sp ++ sy Arrow ++ sp ++ type_layout t ++ sy RParen
  | YUnion l => items (sp ++ sy Bar ++ sp) [] true (map type_layout l)
  end.

Definition word_ (a : string) : lexemes := [(Some (TAtom (str a)), str a)].
Definition attribute (a : string) (l : lexemes) : lexemes :=
  sy Minus ++ word_ a ++ sy LParen ++ l ++ sy RParen ++ dot.
Definition lex_exported (l : list (text * N)) : lexemes :=
  sy LBracket ++ items comma [] true (map (fun '(f, a) => atm f ++ sy Slash ++ num a) l) ++ sy RBracket.
Definition lex_doc (d : doc) : lexemes :=
  match d with
  | DocFalse => word_ "false"
  | DocString s =>
      [(Some (TBinary s), [126; 34]%N ++ replace 34 [92; 34]%N (replace 92 [92; 92]%N s) ++ [34%N])]
  end.
Definition top_layout (f : top) : lexemes :=
  match f with
  | Export [] | ExportType [] => []
  | Export l => attribute "export" (lex_exported l) ++ nl 0
  | ExportType l => attribute "export_type" (lex_exported l) ++ nl 0
  | Doc d => nl 0 ++ attribute "doc" (lex_doc d)
  | Moduledoc d => attribute "moduledoc" (lex_doc d) ++ nl 0
  | Compile l =>
      attribute "compile" (sy LBracket ++ items comma [] true (map (fun a => [(Some (TAtom a), a)]) l) ++
        sy RBracket) ++ nl 0
  | AtFile written file line =>
      nl 0 ++ attribute "file" ([(Some (TString file), [34%N] ++ written ++ [34%N])] ++ comma ++ num line)
  | RecordDefinition name l =>
      attribute "record" (atm name ++ comma ++ sy LBrace ++
        items (sy Comma) (nl 4) true (map (fun '(f, t) =>
          atm f ++ sp ++ sy ColonColon ++ sp ++ type_layout t) l) ++ nl 0 ++ sy RBrace)
  | Spec name l t =>
      nl 0 ++ sy Minus ++ word_ "spec" ++ sp ++ atm name ++ sy LParen ++
      items comma [] true (map type_layout l) ++ sy RParen ++ sp ++ sy Arrow ++ sp ++
      type_layout t ++ dot
  | TypeDefinition_ opaque name l t =>
      nl 0 ++ sy Minus ++ word_ (if opaque then "opaque" else "type") ++ sp ++ atm name ++
      sy LParen ++ items comma [] true (map var l) ++ sy RParen ++ sp ++ sy ColonColon ++ sp ++
      type_layout t ++ dot ++ nl 0
  | Function_ name l body =>
      nl 0 ++ atm name ++ sy LParen ++ items comma [] true (map var l) ++ sy RParen ++ sp ++ sy Arrow ++
      items (sy Comma) (nl 4) true (map (layout false false false 4 Expression) body) ++ dot ++ nl 0
  end.

(** ** States up to what is left over *)
Definition sim (a b : builder) : Prop := pop_leftover_items a = pop_leftover_items b.

Lemma pop_leftover_idem ps : forall c,
  pop_leftover (fst (pop_leftover c ps)) (snd (pop_leftover c ps)) = pop_leftover c ps.
Proof.
  induction ps as [|p ps IH]; intro c; [reflexivity|].
  destruct p; try reflexivity; cbn [pop_leftover];
    match goal with e : _ |- _ => destruct e; try reflexivity; apply IH end.
Qed.
Lemma settle_idem b : pop_leftover_items (pop_leftover_items b) = pop_leftover_items b.
Proof.
  unfold pop_leftover_items at 2 3. pose proof (pop_leftover_idem (positions b) (code b)) as H.
  destruct (pop_leftover (code b) (positions b)) as [c ps]. cbn in *.
  unfold pop_leftover_items. cbn. rewrite H. reflexivity.
Qed.

Lemma step_settle c b :
  match c with export_attribute [] | export_type_attribute [] | end_type_spec => True
  | _ => step c (pop_leftover_items b) = step c b end.
Proof.
  destruct c; try exact I; try (destruct exported; [exact I|]);
    try (destruct content);
    unfold step, new_top_level_form, close_currently_open_item, new_record_field, new_type,
      new_expression, new_pattern, new_map_field, do_not_wrap_if_segment_value_or_size,
      new_bit_array_segment, cons_list_of_kind, empty_list_of_kind, new_of_kind, new_case_clause,
      new_clause_guard; rewrite ?settle_idem; reflexivity.
Qed.

Lemma step_sim c a b : sim a b ->
  match step c a, step c b with
  | Some x, Some y => sim x y | None, None => True | _, _ => False
  end.
Proof.
  intro H. unfold sim in H.
  assert (G : (exists y, step c a = Some y /\ step c b = Some y) \/ step c a = None /\ step c b = None
     \/ step c a = Some a /\ step c b = Some b).
  { pose proof (step_settle c a) as A. pose proof (step_settle c b) as B. rewrite H in A.
    destruct c; try (destruct exported); try (right; right; split; reflexivity);
      (rewrite <- A, <- B;
       match goal with |- context [step ?c ?b] => destruct (step c b) end; eauto). }
  destruct G as [(y & -> & ->)|[[-> ->]|[-> ->]]]; [reflexivity|exact I|exact H].
Qed.

Definition runs (cs : list call) (b b' : builder) : Prop :=
  exists b1, run cs b = Some b1 /\ sim b1 b'.

Lemma run_app xs ys b : run (xs ++ ys) b = match run xs b with Some b => run ys b | None => None end.
Proof.
  revert b. induction xs as [|c xs IH]; intro b; [reflexivity|].
  cbn [app run]. destruct (step c b); [apply IH|reflexivity].
Qed.
Lemma run_sim cs : forall a b, sim a b ->
  match run cs a, run cs b with
  | Some x, Some y => sim x y | None, None => True | _, _ => False
  end.
Proof.
  induction cs as [|c cs IH]; intros a b H; [exact H|].
  cbn [run]. pose proof (step_sim c a b H) as S.
  destruct (step c a), (step c b); try contradiction; [apply IH, S|exact I].
Qed.
Lemma runs_app xs ys a b c : runs xs a b -> runs ys b c -> runs (xs ++ ys) a c.
Proof.
  intros (a1 & R & S) (b1 & R' & S').
  pose proof (run_sim ys a1 b S) as H. rewrite R' in H.
  destruct (run ys a1) as [x|] eqn:E; [|contradiction].
  exists x. rewrite run_app, R. split; [exact E|]. unfold sim in *. congruence.
Qed.
Lemma runs_step c a b : step c a = Some b -> runs [c] a b.
Proof. intro H. exists b. cbn [run]. rewrite H. split; reflexivity. Qed.
Lemma runs_cons c cs a b d : step c a = Some b -> runs cs b d -> runs (c :: cs) a d.
Proof. intros H R. apply (runs_app [c] cs a b d); [apply runs_step, H|exact R]. Qed.
Lemma runs_nil a : runs [] a a.
Proof. exists a. split; reflexivity. Qed.
Lemma runs_sim cs a b b' : runs cs a b -> sim b b' -> runs cs a b'.
Proof. intros (x & R & S) H. exists x. split; [exact R|]. unfold sim in *. congruence. Qed.
Lemma runs_from cs a a' b : runs cs a b -> sim a' a -> runs cs a' b.
Proof.
  intros (x & R & S) H. pose proof (run_sim cs a' a H) as G. rewrite R in G.
  destruct (run cs a') as [y|] eqn:E; [|contradiction]. exists y. split; [exact E|].
  unfold sim in *. congruence.
Qed.

(** ** Expressions and patterns *)

Fixpoint size (n : node) : nat :=
  S match n with
    | NTuple l | NBlock l | NRemote _ _ l | NFun _ l => list_sum (map size l)
    | NCons h t => size h + size t
    | NBits l =>
        list_sum (map (fun '(v, (s, _)) => size v + match s with Some n => size n | None => 0 end) l)
    | NMap l => list_sum (map (fun '(a, b) => size a + size b) l)
    | NCall f l => size f + list_sum (map size l)
    | NUnary _ n => size n
    | NBinary _ a b | NMatch a b => size a + size b
    | NCase n l =>
        size n + list_sum (map (fun '(p, (g, b)) =>
          size p + match g with Some n => size n | None => 0 end + list_sum (map size b)) l)
    | _ => 0
    end.

(** Entering a position. *)
Definition enter (k : kind) (n : node) (b : builder) : option builder :=
  new_of_kind k
    (if simple k n then do_not_wrap_if_segment_value_or_size b
     else if is_call n then mark_called_call (pop_leftover_items b) else b).
Definition proper (b : builder) : bool :=
  match last b with
  | None | Some (AtFunctionSpec | AtTypeSpec _ | AtFunctionType _ _ | AtNamedType _ | AtUnionType _
         | AtRecordAttribute _ | AtTupleType _) => false
  | Some _ => true
  end.
Definition at_size (b : builder) : bool :=
  match last b with Some (AtBitArraySegment SegmentSize _ _) => true | _ => false end.
Definition operand (b : builder) : bool :=
  match last (pop_leftover_items b) with
  | Some (AtBinaryOperator _ _ _ | AtUnaryOperator) => true | _ => false end.
Definition merges (k : kind) (n : node) (b : builder) : bool :=
  match last (pop_leftover_items b) with
  | Some (AtList k' Rest) => kind_eqb k' k && is_list n
  | _ => false
  end.

Definition node_ok (n : node) : Prop := forall k b b1, wf k n ->
  enter k n b = Some b1 -> proper b1 = true -> merges k n b = false ->
  runs (calls k n) b
    (push_str (text_of (layout false (at_size b1) (operand b) (indentation b1) k n)) b1).
Definition tail_ok (n : node) : Prop := forall k c ps i, wf k n ->
  runs (calls k n) (Builder c (AtList k Rest :: ps) i)
    (Builder (c ++ text_of (layout true false false i k n)) ps i).

(** Positions that do not care about what comes. *)
Definition neutral (p : position) : bool :=
  match p with
  | AtBitArraySegment _ _ _ | AtFunctionCall FunctionToBeCalled _
  | AtList _ Rest | AtList _ ListIsOver | AtBinaryOperator _ _ _ | AtUnaryOperator | AtTypeSpec _ => false
  | _ => true
  end.
Lemma neutral_enter k n c p ps i : neutral p = true ->
  enter k n (Builder c (p :: ps) i) = new_of_kind k (Builder c (p :: ps) i).
Proof.
  intro H. unfold enter.
  replace (do_not_wrap_if_segment_value_or_size (Builder c (p :: ps) i)) with (Builder c (p :: ps) i)
    by (destruct p; try discriminate H; try reflexivity;
        destruct expected; try discriminate H; reflexivity).
  replace (mark_called_call (pop_leftover_items (Builder c (p :: ps) i))) with (Builder c (p :: ps) i)
    by (destruct p; try discriminate H; try reflexivity;
        destruct expected; try discriminate H; reflexivity).
  destruct (simple k n), (is_call n); reflexivity.
Qed.
Lemma neutral_operand c p ps i : neutral p = true -> operand (Builder c (p :: ps) i) = false.
Proof. destruct p; try reflexivity; try discriminate. destruct expected; try discriminate; reflexivity. Qed.
Lemma neutral_merges k n c p ps i : neutral p = true -> merges k n (Builder c (p :: ps) i) = false.
Proof. destruct p; try reflexivity; try discriminate. destruct expected; try discriminate; reflexivity. Qed.

(** A child at such a position. *)
Lemma child n k c p ps i c' q ps' : node_ok n -> wf k n -> neutral p = true ->
  new_of_kind k (Builder c (p :: ps) i) = Some (Builder c' (q :: ps') i) ->
  proper (Builder c' (q :: ps') i) = true -> at_size (Builder c' (q :: ps') i) = false ->
  runs (calls k n) (Builder c (p :: ps) i)
    (Builder (c' ++ text_of (layout false false false i k n)) (q :: ps') i).
Proof.
  intros OK W N E P A.
  pose proof (OK k (Builder c (p :: ps) i) (Builder c' (q :: ps') i) W) as G.
  rewrite neutral_enter, neutral_operand, neutral_merges, A in G by exact N.
  exact (G E P eq_refl).
Qed.

Definition no_more {A} (first : bool) (l : list A) : bool := match l with [] => first | _ :: _ => false end.
Lemma children_more p sep pre ps i k (l : list node) :
  neutral p = true -> proper (Builder [] [p] 0) = true ->
  (forall c, new_of_kind k (Builder c (p :: ps) i) =
     Some (Builder (c ++ text_of sep ++ text_of pre) (p :: ps) i)) ->
  (forall n, In n l -> node_ok n) -> each (wf k) l -> forall c,
  runs (flat_map (calls k) l) (Builder c (p :: ps) i)
    (Builder (c ++ text_of (items sep pre false (map (layout false false false i k) l))) (p :: ps) i).
Proof.
  intros N P E. induction l as [|n l IH]; intros OK W c.
  - cbn [map items text_of flat_map]. rewrite app_nil_r. apply runs_nil.
  - cbn [map items flat_map]. destruct W as [Wn W].
    eapply runs_app.
    + eapply child; [apply OK; left; reflexivity|exact Wn|apply N|apply E|exact P|].
      unfold at_size, last. cbn. destruct p; try reflexivity. discriminate N.
    + eapply runs_sim; [apply IH; [intros m M; apply OK; right; exact M|exact W]|].
      unfold sim. f_equal. f_equal. rewrite !text_of_app, <- !app_assoc. reflexivity.
Qed.
Lemma children (pos : bool -> position) sep pre ps i k (l : list node) :
  (forall first, neutral (pos first) = true) ->
  proper (Builder [] [pos false] 0) = true ->
  (forall c first, new_of_kind k (Builder c (pos first :: ps) i) =
     Some (Builder (c ++ (if first then [] else text_of sep) ++ text_of pre) (pos false :: ps) i)) ->
  (forall n, In n l -> node_ok n) -> each (wf k) l -> forall first c,
  runs (flat_map (calls k) l) (Builder c (pos first :: ps) i)
    (Builder (c ++ text_of (items sep pre first (map (layout false false false i k) l)))
       (pos (no_more first l) :: ps) i).
Proof.
  intros N P E OK W first c. destruct l as [|n l].
  - cbn [map items text_of flat_map]. rewrite app_nil_r. apply runs_nil.
  - cbn [map items flat_map]. destruct W as [Wn W].
    eapply runs_app.
    + eapply child; [apply OK; left; reflexivity|exact Wn|apply N|apply E|exact P|].
      specialize (N false). unfold at_size, last. cbn. destruct (pos false); try reflexivity.
      discriminate N.
    + eapply runs_sim; [apply (children_more (pos false) sep pre); [apply N|exact P|intro; apply E| |exact W];
        intros m M; apply OK; right; exact M|].
      cbn [no_more]. unfold sim. f_equal. f_equal. rewrite !text_of_app, <- !app_assoc.
      destruct first; reflexivity.
Qed.

Lemma in_sum {A} (f : A -> nat) l a : In a l -> f a <= list_sum (map f l).
Proof.
  unfold list_sum. induction l as [|b l IH]; [intros []|].
  cbn. intros [H|H]; [subst; lia|]. apply IH in H. lia.
Qed.

Lemma text_of_nl i : text_of (nl i) = 10%N :: repeat 32%N i.
Proof. unfold nl, text_of. cbn. f_equal. induction i as [|i IH]; [reflexivity|]. cbn. f_equal. exact IH. Qed.
Lemma text_of_var x : text_of (var x) = x.
Proof. apply app_nil_r. Qed.
Lemma text_of_atm x : text_of (atm x) = quote_atom_name x.
Proof. apply app_nil_r. Qed.
Lemma text_of_num n : text_of (num n) = decimal n.
Proof. apply app_nil_r. Qed.
Lemma text_of_sy s : text_of (sy s) = spelling s.
Proof. apply app_nil_r. Qed.
Lemma text_of_parens b l : text_of (parens b l) = if b then str "(" ++ text_of l ++ str ")" else text_of l.
Proof. destruct b; [|reflexivity]. unfold parens. rewrite !text_of_app, !text_of_sy. reflexivity. Qed.

Ltac texts :=
  repeat first [rewrite text_of_parens | rewrite text_of_app];
  rewrite ?text_of_nl, ?text_of_var, ?text_of_atm, ?text_of_num, ?text_of_sy.
(** Equality of builders whose code is made of the same pieces. *)
Ltac same :=
  unfold push_indentation, separator; unfold push_str, push, set_last, pop, indent;
  cbn [code positions indentation]; texts; rewrite <- ?app_assoc; try reflexivity.

Lemma text_of_int z : text_of (lex_int z) = int_to_string z.
Proof.
  unfold lex_int. rewrite text_of_app, text_of_num. destruct z; reflexivity.
Qed.
Lemma text_of_float f : float_digits f -> text_of (lex_float f) = format_float f.
Proof.
  intros (_ & _ & _ & Z). unfold lex_float, format_float. cbv zeta.
  change (forallb (N.eqb 48) (whole f)) with (zeros (whole f)) in Z.
  rewrite text_of_app. cbn [text_of flat_map snd]. rewrite app_nil_r.
  destruct (zeros (whole f)) eqn:W.
  - rewrite (Z eq_refl). destruct (zeros (fraction f)) eqn:F; cbn [andb];
      destruct (negative f); reflexivity.
  - cbn [andb]. destruct (negative f); reflexivity.
Qed.

Lemma push_separated_text l b :
  push_separated l b = push_str (text_of (items comma [] true (map (fun x => [(None, x)]) l))) b.
Proof.
  unfold push_separated. generalize true. revert b. induction l as [|x l IH]; intros b first.
  - destruct b. unfold push_str. cbn. rewrite app_nil_r. reflexivity.
  - cbn [push_separated_from map items]. rewrite IH. destruct b, first; same.
    + f_equal. unfold text_of at 2. cbn. rewrite app_nil_r. reflexivity.
    + f_equal. cbn. rewrite ?app_nil_r, <- ?app_assoc. reflexivity.
Qed.
Lemma items_text {A} sep pre (f g : A -> lexemes) l : (forall x, text_of (f x) = text_of (g x)) ->
  forall first, text_of (items sep pre first (map f l)) = text_of (items sep pre first (map g l)).
Proof.
  intro H. induction l as [|x l IH]; intro first; [reflexivity|].
  cbn [map items]. rewrite !text_of_app, H, IH. reflexivity.
Qed.

Lemma list_sum_lt {A} (f : A -> nat) l a m : In a l -> list_sum (map f l) < m -> f a < m.
Proof. intros I. pose proof (in_sum f l a I). lia. Qed.

(** ** All nodes *)
(** Evaluates methods at a known position. *)
Ltac ev :=
  cbn [pop_leftover_items pop_leftover last hd_error positions code indentation pop tl push_str push
    set_last separator step close_currently_open_item new_of_kind new_expression new_pattern new_type
    indent push_indentation option_map kind_eqb mark_called_call cons_list_of_kind empty_list_of_kind
    new_bit_array_segment new_case_clause new_map_field new_clause_guard new_record_field
    do_not_wrap_if_segment_value_or_size orb];
  unfold push_indentation; unfold pop, push, set_last, indent, push_str; cbn [code positions indentation tl].
Ltac begin E := eapply runs_cons; [cbn [step]; cbn [new_of_kind] in E; rewrite E; reflexivity|].
Ltac kids pos sep pre OK W :=
  eapply runs_app;
  [eapply (children pos sep pre); try reflexivity;
    [intros ? []; ev; same; rewrite ?app_nil_r; try reflexivity|exact OK|exact W]|].
Ltac finish := apply runs_step; ev; f_equal; same.

Lemma tuple_ok k l : (forall n, In n l -> node_ok n) -> forall b b1, wf k (NTuple l) ->
  enter k (NTuple l) b = Some b1 ->
  runs (calls k (NTuple l)) b
    (push_str (text_of (layout false (at_size b1) (operand b) (indentation b1) k (NTuple l))) b1).
Proof.
  intros OK b [c ps i] W E. unfold enter in E. cbn [simple is_call] in E.
  cbn [layout andb calls]. cbn [wf] in W.
  destruct k; cbn [by_kind]; begin E.
  - kids AtTuplePattern comma (@nil (option token * text)) OK W. finish.
  - kids AtTuple comma (@nil (option token * text)) OK W. finish.
Qed.

Lemma unindent_add c ps i : unindent (Builder c ps (i + 4)) = Some (Builder c ps i).
Proof.
  unfold unindent, INDENT. cbn [indentation code positions].
  replace (Nat.leb 4 (i + 4)) with true by (symmetry; apply Nat.leb_le; lia).
  f_equal. f_equal. lia.
Qed.
Lemma close_line t c ps i :
  close_on_new_line t (Builder c ps (i + 4)) = Some (Builder (c ++ text_of (nl i) ++ t) ps i).
Proof. unfold close_on_new_line. rewrite unindent_add. same. Qed.

Lemma settle_new k b : new_of_kind k (pop_leftover_items b) = new_of_kind k b.
Proof. destruct k; cbn [new_of_kind]; unfold new_pattern, new_expression; rewrite settle_idem; reflexivity. Qed.

Lemma block_ok l : (forall n, In n l -> node_ok n) -> forall k b b1, wf k (NBlock l) ->
  enter k (NBlock l) b = Some b1 ->
  runs (calls k (NBlock l)) b
    (push_str (text_of (layout false (at_size b1) (operand b) (indentation b1) k (NBlock l))) b1).
Proof.
  intros OK k b [c ps i] (-> & _ & W) E. unfold enter in E. cbn [simple is_call] in E.
  cbn [layout andb calls]. begin E.
  kids AtBlock (sy Comma) (nl (i + 4)) OK W.
  apply runs_step. ev. unfold INDENT. rewrite close_line. f_equal. same.
Qed.

Lemma args_ok l ps i w : (forall n, In n l -> node_ok n) -> each (wf Expression) l -> forall c,
  runs (flat_map (calls Expression) l ++ [end_call])
    (Builder c (AtFunctionCall (CallArguments true) w :: ps) i)
    (Builder (c ++ (if w then str ")" else []) ++ text_of (sy LParen ++
       items comma [] true (map (layout false false false i Expression) l) ++ sy RParen)) ps i).
Proof.
  intros OK W c. destruct l as [|n l].
  - apply runs_step. destruct w; ev; f_equal; same.
  - destruct W as [Wn W]. cbn [flat_map]. rewrite <- app_assoc. eapply runs_app.
    + eapply child with (c' := c ++ (if w then str ")" else []) ++ str "(");
        [apply OK; left; reflexivity|exact Wn|reflexivity|destruct w; ev; same|reflexivity|reflexivity].
    + eapply runs_app; [eapply (children_more (AtFunctionCall (CallArguments false) false) comma []);
        try reflexivity; [intros m M; apply OK; right; exact M|exact W]|].
      cbn [map items]. apply runs_step. ev. f_equal. same.
Qed.

Lemma call_ok f l : node_ok f -> (forall n, In n l -> node_ok n) -> forall k b b1, wf k (NCall f l) ->
  enter k (NCall f l) b = Some b1 ->
  runs (calls k (NCall f l)) b
    (push_str (text_of (layout false (at_size b1) (operand b) (indentation b1) k (NCall f l))) b1).
Proof.
  intros OKf OK k b [c ps i] (-> & Wf & _ & W) E. unfold enter in E. cbn [simple is_call] in E.
  cbn [layout andb calls]. begin E.
  assert (R : runs (calls Expression f) (Builder c (AtFunctionCall FunctionToBeCalled false :: ps) i)
    (Builder (c ++ (if is_call f then str "(" else []) ++ text_of (layout false false false i Expression f))
      (AtFunctionCall (CallArguments true) (is_call f) :: ps) i)).
  { eapply runs_sim; [apply OKf with
      (b1 := Builder (c ++ (if is_call f then str "(" else []))
               (AtFunctionCall (CallArguments true) (is_call f) :: ps) i);
      [exact Wf| |reflexivity|reflexivity]|].
    - unfold enter. destruct f; ev; cbn [simple is_call]; ev; rewrite ?app_nil_r; reflexivity.
    - same. }
  eapply runs_app; [exact R|].
  eapply runs_cons; [ev; reflexivity|].
  eapply runs_sim; [apply args_ok; [exact OK|exact W]|].
  destruct (is_call f); same.
Qed.

Lemma remote_ok m f l : (forall n, In n l -> node_ok n) -> forall k b b1, wf k (NRemote m f l) ->
  enter k (NRemote m f l) b = Some b1 ->
  runs (calls k (NRemote m f l)) b
    (push_str (text_of (layout false (at_size b1) (operand b) (indentation b1) k (NRemote m f l))) b1).
Proof.
  intros OK k b [c ps i] (-> & _ & _ & W) E. unfold enter in E. cbn [simple is_call] in E.
  cbn [layout andb calls]. begin E.
  eapply runs_sim; [apply args_ok; [exact OK|exact W]|]. same.
Qed.

Lemma unary_ok op n : node_ok n -> forall k b b1, wf k (NUnary op n) -> proper b1 = true ->
  enter k (NUnary op n) b = Some b1 ->
  runs (calls k (NUnary op n)) b
    (push_str (text_of (layout false (at_size b1) (operand b) (indentation b1) k (NUnary op n))) b1).
Proof.
  intros OK k b [c ps i] (-> & O & W & _) P E. unfold enter in E. cbn [simple is_call] in E.
  cbn [layout andb calls]. begin E.
  eapply runs_sim; [apply OK with (b1 := Builder ((c ++ operator_text op) ++ str " ") ps i);
    [exact W| |exact P|reflexivity]|].
  - unfold enter. destruct n; reflexivity.
  - same. unfold sim. f_equal. f_equal. destruct op; try discriminate O; reflexivity.
Qed.

Lemma binary_ok op x y : node_ok x -> node_ok y -> forall k b b1, wf k (NBinary op x y) ->
  enter k (NBinary op x y) b = Some b1 ->
  runs (calls k (NBinary op x y)) b
    (push_str (text_of (layout false (at_size b1) (operand b) (indentation b1) k (NBinary op x y))) b1).
Proof.
  intros OKx OKy k b [c ps i] (-> & O & Wx & Wy & _) E. unfold enter in E. cbn [simple is_call] in E.
  cbn [layout andb calls].
  assert (T : spelling op = operator_text op)
    by (destruct op; try discriminate O; reflexivity).
  eapply runs_cons.
  { cbn [step]. cbv zeta. change new_expression with (new_of_kind Expression).
    rewrite settle_new, E. fold (operand b). reflexivity. }
  set (w := operand b). set (o := operator_text op) in *.
  eapply runs_app.
  { apply OKx with (b1 := Builder (c ++ if w then str "(" else [])
      (AtBinaryOperator OperatorRight w o :: ps) i); [exact Wx| |reflexivity|reflexivity].
    unfold enter. destruct x, w; ev; cbn [simple is_call]; ev; rewrite ?app_nil_r; reflexivity. }
  eapply runs_sim.
  { apply OKy with (b1 := Builder (((c ++ if w then str "(" else []) ++
      text_of (layout false false true i Expression x)) ++ str " " ++ o ++ str " ")
      (AtBinaryOperator BinaryOperatorIsOver w o :: ps) i); [exact Wy| |reflexivity|reflexivity].
    unfold enter. destruct y; ev; cbn [simple is_call]; ev; same. }
  unfold sim, at_size, operand, pop_leftover_items.
  cbn [last hd_error positions pop_leftover code push_str indentation].
  destruct w; same; rewrite T; reflexivity.
Qed.

Lemma match_ok p n : node_ok p -> node_ok n -> forall k b b1, wf k (NMatch p n) -> proper b1 = true ->
  enter k (NMatch p n) b = Some b1 ->
  runs (calls k (NMatch p n)) b
    (push_str (text_of (layout false (at_size b1) (operand b) (indentation b1) k (NMatch p n))) b1).
Proof.
  intros OKp OKn k b [c ps i] (Wp & Wn) P E. unfold enter in E. cbn [simple is_call] in E.
  cbn [layout andb calls]. destruct k; cbn [by_kind]; begin E.
  - eapply runs_app; [eapply child; [exact OKp|exact Wp|reflexivity|ev; reflexivity|reflexivity|reflexivity]|].
    eapply runs_sim; [apply OKn with (b1 := Builder ((c ++
      text_of (layout false false false i Pattern p)) ++ str " = ") ps i);
      [exact Wn| |exact P|reflexivity]|].
    + rewrite neutral_enter by reflexivity. reflexivity.
    + same.
  - eapply runs_app; [eapply child; [exact OKp|exact Wp|reflexivity|ev; reflexivity|reflexivity|reflexivity]|].
    eapply runs_sim; [apply OKn with (b1 := Builder ((c ++
      text_of (layout false false false i Pattern p)) ++ str " = ") ps i);
      [exact Wn| |exact P|reflexivity]|].
    + rewrite neutral_enter by reflexivity. reflexivity.
    + same.
Qed.

Lemma cons_step k b b1 : new_of_kind k b = Some b1 -> merges k NNil b = false ->
  cons_list_of_kind k b = Some (push (AtList k First) (push_str (str "[") b1)) /\
  empty_list_of_kind k b = Some (push_str (str "[]") b1).
Proof.
  intros E M. unfold cons_list_of_kind, empty_list_of_kind. rewrite settle_new, E.
  unfold merges in M. cbn [is_list] in M. rewrite andb_true_r in M || idtac.
  destruct (last (pop_leftover_items b)) as [p|]; [|split; reflexivity].
  destruct p; try (split; reflexivity). destruct expected; try (split; reflexivity).
  rewrite andb_true_r in M. rewrite M. split; reflexivity.
Qed.

Lemma cons_ok h t : node_ok h -> tail_ok t -> node_ok (NCons h t).
Proof.
  intros OKh OKt k b [c ps i] (Wh & Wt) E P M. unfold enter in E. cbn [simple is_call] in E.
  cbn [layout andb calls].
  destruct (cons_step k b _ E M) as [G _].
  eapply runs_cons; [destruct k; exact G|].
  eapply runs_app; [eapply child with (c' := c ++ str "[") (q := AtList k Rest) (ps' := ps);
    [exact OKh|exact Wh|reflexivity|destruct k; reflexivity|reflexivity|reflexivity]|].
  eapply runs_sim; [apply OKt, Wt|]. same.
Qed.
Lemma nil_ok : node_ok NNil.
Proof.
  intros k b [c ps i] W E P M. unfold enter in E. cbn [simple is_call] in E.
  destruct (cons_step k b _ E M) as [_ G]. cbn [calls].
  eapply runs_sim; [apply runs_step; destruct k; exact G|]. same.
Qed.

Lemma tail_from n : node_ok n -> match n with NCons h t => node_ok h /\ tail_ok t | _ => True end ->
  tail_ok n.
Proof.
  intros OK C k c ps i W. destruct (is_list n) eqn:L.
  - destruct n; try discriminate L.
    + apply runs_step. destruct k; ev; f_equal; same.
    + destruct C as [OKh OKt]. destruct W as [Wh Wt]. cbn [layout andb calls is_list negb].
      eapply runs_cons with (b := Builder (c ++ str ", ") (AtList k First :: ps) i);
        [destruct k; reflexivity|].
      eapply runs_app; [eapply child with (c' := c ++ str ", ") (q := AtList k Rest) (ps' := ps);
        [exact OKh|exact Wh|reflexivity|destruct k; reflexivity|reflexivity|reflexivity]|].
      eapply runs_sim; [apply OKt, Wt|]. same.
  - eapply runs_sim; [apply OK with (b1 := Builder (c ++ str " | ") (AtList k ListIsOver :: ps) i);
      [exact W| |reflexivity|]|].
    + unfold enter. destruct n, k; try discriminate L; reflexivity.
    + unfold merges. ev. rewrite L. apply andb_false_r.
    + unfold operand, at_size, sim. ev. 
      replace (layout true false false i k n)
        with (sp ++ sy Bar ++ sp ++ layout false false false i k n ++ sy RBracket)
        by (destruct n; try discriminate L; reflexivity).
      same. unfold pop_leftover_items. cbn [positions code indentation pop_leftover].
      rewrite <- ?app_assoc. reflexivity.
Qed.

Lemma push_specifiers_text l : forall first b,
  push_specifiers first l b =
  push_str (text_of (match l with [] => [] | _ => (if first then sy Slash else sy Minus) ++
    items (sy Minus) [] true (map lex_specifier l) end)) b.
Proof.
  induction l as [|s l IH]; intros first b.
  - destruct b. unfold push_str. cbn. rewrite app_nil_r. reflexivity.
  - cbn [push_specifiers map items]. rewrite IH. destruct b as [c ps i].
    assert (T : text_of (lex_specifier s) = specifier_string s).
    { destruct s; try reflexivity. cbn [lex_specifier specifier_string].
      change (text_of ((Some (TAtom (str "unit")), str "unit") :: sy Colon ++ num n))
        with (str "unit:" ++ text_of (num n)).
      rewrite text_of_num. reflexivity. }
    destruct l as [|s' l]; unfold push_str; cbn [code positions indentation]; f_equal;
      rewrite !text_of_app, T; destruct first; cbn [map items text_of flat_map app]; rewrite <- ?app_assoc, ?app_nil_r;
      reflexivity.
Qed.

Lemma segments_ok k l ps i :
  (forall v s sp, In (v, (s, sp)) l -> node_ok v /\ match s with Some n => node_ok n | None => True end) ->
  wf k (NBits l) -> forall c first,
  runs (flat_map (fun '(v, (size, specifiers)) =>
        [bit_array_segment] ++ calls k v ++
        match size with
        | Some n => calls Expression n
        | None => [bit_array_segment_default_size]
        end ++ [bit_array_segment_specifiers specifiers]) l)
    (Builder c (AtBitArray k first :: ps) i)
    (Builder (c ++ text_of (items comma [] first (map (fun '(v, (size, specifiers)) =>
          parens (negb (simple k v)) (layout false true false i k v) ++
          match size with
          | Some n => sy Colon ++ parens (negb (simple Expression n)) (layout false false false i Expression n)
          | None => []
          end ++ lex_specifiers specifiers) l)))
       (AtBitArray k (no_more first l) :: ps) i).
Proof.
  induction l as [|[v [size specs]] l IH]; intros OK W c first.
  - cbn [map items text_of flat_map]. rewrite app_nil_r. apply runs_nil.
  - destruct W as [(Wv & _ & Ws) W]. cbn [flat_map map items]. rewrite <- !app_assoc.
    destruct (OK v size specs (or_introl eq_refl)) as [OKv OKs].
    set (w := negb (simple k v)).
    set (c0 := c ++ if first then [] else str ", ").
    eapply runs_cons with (b := Builder c0
        (AtBitArraySegment (SegmentValue k) true true :: AtBitArray k false :: ps) i).
    { unfold c0. destruct first; ev; rewrite ?app_nil_r; reflexivity. }
    set (c1 := c0 ++ if w then str "(" else []).
    eapply runs_app.
    { apply OKv with (b1 := Builder c1 (AtBitArraySegment SegmentSize w true :: AtBitArray k false :: ps) i);
        [exact Wv| |reflexivity|reflexivity].
      unfold enter, c1, w. destruct k, v; ev; cbn [simple is_call negb]; ev; rewrite ?app_nil_r; reflexivity. }
    set (c2 := c1 ++ text_of (layout false true false i k v)).
    set (c3 := c2 ++ if w then str ")" else []).
    assert (R : exists (c4 : text) (sw : bool), c4 ++ (if sw then str ")" else []) = c3 ++ text_of match size with
          | Some n => sy Colon ++ parens (negb (simple Expression n)) (layout false false false i Expression n)
          | None => [] end /\
        runs match size with
          | Some n => calls Expression n
          | None => [bit_array_segment_default_size]
          end (Builder c2 (AtBitArraySegment SegmentSize w true :: AtBitArray k false :: ps) i)
          (Builder c4 (AtBitArraySegment SegmentSpecifiers false sw :: AtBitArray k false :: ps) i)).
    { destruct size as [n|].
      - set (sw := negb (simple Expression n)).
        exists ((c3 ++ str ":" ++ if sw then str "(" else []) ++ text_of (layout false false false i Expression n)), sw.
        split; [destruct sw; same; cbn; rewrite ?app_nil_r; reflexivity|].
        eapply runs_sim; [apply OKs with (b1 := Builder (c3 ++ str ":" ++ if sw then str "(" else [])
            (AtBitArraySegment SegmentSpecifiers false sw :: AtBitArray k false :: ps) i);
          [apply Ws| |reflexivity|reflexivity]|reflexivity].
        unfold enter, c3, sw. destruct n, w; ev; cbn [simple is_call negb]; ev; same; rewrite ?app_nil_r; reflexivity.
      - exists c3, false. split; [reflexivity|]. apply runs_step. unfold c3. destruct w; ev; rewrite ?app_nil_r; reflexivity. }
    destruct R as (c4 & sw & C4 & R).
    eapply runs_app; [exact R|].
    eapply runs_cons with (b := Builder ((c4 ++ if sw then str ")" else []) ++ text_of (lex_specifiers specs))
        (AtBitArray k false :: ps) i).
    { ev. rewrite push_specifiers_text. unfold lex_specifiers.
      destruct (sort_specifiers specs), sw; ev; same. }
    eapply runs_sim; [apply IH; [intros v' s' sp' I'; apply (OK v' s' sp'); right; exact I'|exact W]|].
    cbn [no_more]. replace (no_more false l) with false by (destruct l; reflexivity).
    unfold sim. f_equal. f_equal. rewrite C4. unfold c3, c2, c1, c0, w. texts.
    rewrite <- !app_assoc. destruct first, (simple k v); cbn [negb app]; rewrite <- ?app_assoc; reflexivity.
Qed.

Lemma bits_ok k l :
  (forall v s sp, In (v, (s, sp)) l -> node_ok v /\ match s with Some n => node_ok n | None => True end) ->
  forall b b1, wf k (NBits l) -> enter k (NBits l) b = Some b1 ->
  runs (calls k (NBits l)) b
    (push_str (text_of (layout false (at_size b1) (operand b) (indentation b1) k (NBits l))) b1).
Proof.
  intros OK b [c ps i] W E. unfold enter in E.
  cbn [layout andb calls]. destruct k; cbn [by_kind simple is_call] in *; begin E.
  - eapply runs_app; [apply segments_ok; [exact OK|exact W]|]. apply runs_step. ev. f_equal. same.
  - eapply runs_app; [apply segments_ok; [exact OK|exact W]|]. apply runs_step. ev. f_equal. same.
Qed.

Lemma map_ok l : (forall a b, In (a, b) l -> node_ok a /\ node_ok b) ->
  forall k b b1, wf k (NMap l) -> enter k (NMap l) b = Some b1 ->
  runs (calls k (NMap l)) b
    (push_str (text_of (layout false (at_size b1) (operand b) (indentation b1) k (NMap l))) b1).
Proof.
  intros OK k b [c ps i] (-> & W) E. unfold enter in E. cbn [simple is_call] in E.
  cbn [layout andb calls]. begin E.
  eapply runs_app with (b := Builder (c ++ text_of (sy Hash ++ sy LBrace ++
      items (sy Comma) (nl (i + 4)) true (map (fun '(a, b) =>
          layout false false false (i + 4) Expression a ++ sp ++ sy FatArrow ++ sp ++
          layout false false false (i + 4) Expression b) l))) (AtMap (no_more true l) :: ps) (i + 4)).
  - rewrite !text_of_app, !app_assoc, <- (app_assoc c).
    change (text_of (sy Hash) ++ text_of (sy LBrace)) with (str "#{").
    unfold push_str, push, indent. cbn [code positions indentation]. change INDENT with 4.
    generalize (c ++ str "#{") as c0. clear E c b. generalize true as first.
    induction l as [|[x y] l IH]; intros first c.
    + cbn [map items text_of flat_map]. rewrite app_nil_r. apply runs_nil.
    + destruct W as [[Wx Wy] W]. destruct (OK x y (or_introl eq_refl)) as [OKx OKy].
      cbn [flat_map map items]. rewrite <- !app_assoc.
      set (c0 := c ++ (if first then [] else str ",") ++ text_of (nl (i + 4))).
      eapply runs_cons with (b := Builder c0 (AtMapField MapKey :: AtMap false :: ps) (i + 4)).
      { unfold c0. destruct first; ev; f_equal; same. }
      eapply runs_app; [eapply child; [exact OKx|exact Wx|reflexivity|ev; reflexivity|reflexivity|reflexivity]|].
      eapply runs_app; [eapply child with (ps' := ps) (q := AtMap false);
        [exact OKy|exact Wy|reflexivity|ev; reflexivity|reflexivity|reflexivity]|].
      eapply runs_sim; [apply IH; [intros a d I; apply OK; right; exact I|exact W]|].
      cbn [no_more]. replace (no_more false l) with false by (destruct l; reflexivity).
      unfold sim. f_equal. f_equal. unfold c0. rewrite !text_of_app, <- !app_assoc.
      destruct first; reflexivity.
  - apply runs_step. ev. rewrite close_line. f_equal. same.
Qed.

Lemma args_text l : text_of (items comma [] true (map (fun x => [(None, x)]) l)) =
  text_of (items comma [] true (map var l)).
Proof. apply items_text. reflexivity. Qed.

Lemma fun_ok l body : (forall n, In n body -> node_ok n) ->
  forall k b b1, wf k (NFun l body) -> enter k (NFun l body) b = Some b1 ->
  runs (calls k (NFun l body)) b
    (push_str (text_of (layout false (at_size b1) (operand b) (indentation b1) k (NFun l body))) b1).
Proof.
  intros OK k b [c ps i] (-> & _ & _ & W) E. unfold enter in E. cbn [simple is_call] in E.
  cbn [layout andb calls].
  eapply runs_cons; [cbn [step]; cbn [new_of_kind] in E; rewrite E, push_separated_text, args_text; ev; reflexivity|].
  kids AtAnonymousFunctionStatement (sy Comma) (nl (i + 4)) OK W.
  apply runs_step. ev. unfold INDENT. rewrite close_line. f_equal. same.
Qed.

Lemma clause_ok p guard body ps i c :
  node_ok p -> match guard with Some g => node_ok g | None => True end ->
  (forall n, In n body -> node_ok n) ->
  wf Pattern p -> match guard with Some g => wf Expression g | None => True end ->
  each (wf Expression) body ->
  runs (calls Pattern p ++ [end_clause_pattern] ++
        match guard with
        | Some g => [start_clause_guard] ++ calls Expression g ++ [end_clause_guard]
        | None => []
        end ++ [end_clause_guards] ++ flat_map (calls Expression) body ++ [end_clause_body])
    (Builder c (AtCaseClause ClausePattern :: ps) i)
    (Builder (c ++ text_of (
       layout false false false i Pattern p ++
       match guard with
       | Some g => sp ++ sy KWhen ++ sp ++ layout false false false i Expression g
       | None => []
       end ++ sp ++ sy Arrow ++
       items (sy Comma) (nl (i + 4)) true (map (layout false false false (i + 4) Expression) body))) ps i).
Proof.
  intros OKp OKg OK Wp Wg W.
  eapply runs_app; [eapply child; [exact OKp|exact Wp|reflexivity|ev; reflexivity|reflexivity|reflexivity]|].
  eapply runs_cons; [ev; reflexivity|].
  set (c1 := c ++ text_of (layout false false false i Pattern p)).
  eapply runs_app with (b := Builder (c1 ++ text_of match guard with
       | Some g => sp ++ sy KWhen ++ sp ++ layout false false false i Expression g
       | None => [] end)
       (AtCaseClause (Guards match guard with Some _ => false | None => true end) :: ps) i).
  { destruct guard as [g|].
    - eapply runs_cons; [ev; reflexivity|].
      eapply runs_app; [eapply child; [exact OKg|exact Wg|reflexivity|ev; reflexivity|reflexivity|reflexivity]|].
      apply runs_step. ev. f_equal. same.
    - rewrite app_nil_r. apply runs_nil. }
  eapply runs_cons; [ev; reflexivity|].
  kids (fun f => AtCaseClause (Body f)) (sy Comma) (nl (i + 4)) OK W.
  apply runs_step. ev. unfold INDENT. rewrite unindent_add. f_equal. unfold c1. same.
Qed.

Lemma case_ok n l : node_ok n ->
  (forall p g b, In (p, (g, b)) l -> node_ok p /\ match g with Some g => node_ok g | None => True end /\
     forall m, In m b -> node_ok m) ->
  forall k b b1, wf k (NCase n l) -> enter k (NCase n l) b = Some b1 ->
  runs (calls k (NCase n l)) b
    (push_str (text_of (layout false (at_size b1) (operand b) (indentation b1) k (NCase n l))) b1).
Proof.
  intros OKn OK k b [c ps i] (-> & Wn & NE & W) E. unfold enter in E. cbn [simple is_call] in E.
  cbn [layout andb calls]. begin E.
  eapply runs_app; [eapply child; [exact OKn|exact Wn|reflexivity|ev; reflexivity|reflexivity|reflexivity]|].
  eapply runs_cons; [ev; reflexivity|].
  set (c1 := (c ++ str "case ") ++ text_of (layout false false false i Expression n)).
  eapply runs_app with (b := Builder (c1 ++ text_of (sp ++ sy KOf ++
      items (sy Semicolon ++ nl 0) (nl (i + 4)) true (map (fun '(p, (guard, body)) =>
          layout false false false (i + 4) Pattern p ++
          match guard with
          | Some g => sp ++ sy KWhen ++ sp ++ layout false false false (i + 4) Expression g
          | None => []
          end ++ sp ++ sy Arrow ++
          items (sy Comma) (nl (i + 4 + 4)) true (map (layout false false false (i + 4 + 4) Expression) body)) l)))
      (AtCase (Branches false) :: ps) (i + 4)).
  2: { apply runs_step. ev. rewrite close_line. f_equal. unfold c1. same. }
  destruct l as [|[p [g body]] l]; [contradiction NE; reflexivity|]. clear NE.
  destruct W as [(Wp & Wg & _ & Wb) W]. destruct (OK p g body (or_introl eq_refl)) as (OKp & OKg & OKb).
  cbn [flat_map map items].
  eapply runs_app.
  { eapply runs_cons with (b := Builder (c1 ++ text_of (sp ++ sy KOf ++ nl (i + 4)))
        (AtCaseClause ClausePattern :: AtCase (Branches false) :: ps) (i + 4)).
    - ev. unfold INDENT. f_equal. unfold push_indentation. same.
    - apply clause_ok; assumption. }
  set (F := fun '(p, (guard, body)) =>
          layout false false false (i + 4) Pattern p ++
          match guard with
          | Some g => sp ++ sy KWhen ++ sp ++ layout false false false (i + 4) Expression g
          | None => []
          end ++ sp ++ sy Arrow ++
          items (sy Comma) (nl (i + 4 + 4)) true (map (layout false false false (i + 4 + 4) Expression) body)).
  assert (R : forall c, runs (flat_map (fun '(p, (guard, body)) =>
        [start_case_clause] ++ calls Pattern p ++ [end_clause_pattern] ++
        match guard with
        | Some g => [start_clause_guard] ++ calls Expression g ++ [end_clause_guard]
        | None => []
        end ++ [end_clause_guards] ++ flat_map (calls Expression) body ++ [end_clause_body]) l)
     (Builder c (AtCase (Branches false) :: ps) (i + 4))
     (Builder (c ++ text_of (items (sy Semicolon ++ nl 0) (nl (i + 4)) false (map F l)))
       (AtCase (Branches false) :: ps) (i + 4))).
  { assert (OK' : forall p g b, In (p, (g, b)) l -> node_ok p /\
      match g with Some g => node_ok g | None => True end /\ forall m, In m b -> node_ok m)
      by (intros p' g' b' I; apply OK; right; exact I).
    clear E OK OKp OKg OKb Wp Wg Wb c1 p g body c b. induction l as [|[p [g body]] l IH]; intro c.
    - cbn [map items text_of flat_map]. rewrite app_nil_r. apply runs_nil.
    - destruct W as [(Wp & Wg & _ & Wb) W]. destruct (OK' p g body (or_introl eq_refl)) as (OKp & OKg & OKb).
      cbn [flat_map map items]. eapply runs_app.
      + eapply runs_cons with (b := Builder (c ++ text_of (sy Semicolon ++ nl 0 ++ nl (i + 4)))
          (AtCaseClause ClausePattern :: AtCase (Branches false) :: ps) (i + 4)).
        * ev. f_equal. same.
        * apply clause_ok; assumption.
      + eapply runs_sim; [apply IH; [exact W|intros p' g' b' I; apply OK'; right; exact I]|].
        unfold sim. f_equal. f_equal. unfold F at 2. rewrite !text_of_app, <- !app_assoc. reflexivity. }
  eapply runs_sim; [apply R|].
  unfold sim. f_equal. f_equal. rewrite !text_of_app, <- !app_assoc. reflexivity.
Qed.

Lemma leaf_ok n : match n with
  | NVar _ | NDiscard | NInt _ | NFloat _ | NString _ _ | NAtom _ | NFunRef _ _ _ => node_ok n
  | _ => True end.
Proof.
  destruct n; try exact I; intros k b [c ps i] W E P M; unfold enter in E; cbn [simple is_call] in E;
    cbn [layout andb calls]; apply runs_step.
  - destruct k; cbn [step by_kind new_of_kind] in *; rewrite E; same.
  - cbn in W. subst k. cbn [step new_of_kind] in *. rewrite E. same.
  - rewrite text_of_int. destruct k; cbn [step by_kind new_of_kind] in *; rewrite E; same.
  - rewrite text_of_float by exact W. destruct k; cbn [step by_kind new_of_kind] in *; rewrite E; same.
  - assert (G : do_print_string_content written (Builder c ps i) =
      Some (push_str (text_of (lex_string (at_size (Builder c ps i)) written value)) (Builder c ps i))).
    { assert (T : forall sv, text_of (lex_string sv written value) =
        (if sv then [34%N] else [126; 34]%N) ++ escape_literal_string_content written ++ [34%N])
        by (intros []; unfold lex_string, text_of; cbn [flat_map snd]; rewrite app_nil_r; reflexivity).
      rewrite T. unfold do_print_string_content, escape_string_content, at_size.
      unfold proper in P. unfold last in *. destruct ps as [|p ps]; [discriminate P|].
      cbn [hd_error positions] in *.
      destruct p; try discriminate P; try (destruct expected); same. }
    destruct k; cbn [step by_kind new_of_kind] in *; rewrite E; exact G.
  - destruct k; cbn [step by_kind new_of_kind] in *; rewrite E; same.
  - destruct W as [-> W]. cbn [step new_of_kind] in *. rewrite E. destruct module; same.
Qed.

Theorem all_ok : forall m n, size n < m -> node_ok n /\ tail_ok n.
Proof.
  induction m as [|m IH]; intros n L; [lia|].
  assert (SUB : forall l, list_sum (map size l) < m -> forall x, In x l -> node_ok x).
  { intros l S x I. apply IH. pose proof (in_sum size l x I). lia. }
  assert (OK : node_ok n).
  { pose proof (leaf_ok n) as LF. destruct n; try exact LF; cbn [size] in L.
    - intros k b b1 W E P M. apply tuple_ok; [apply SUB; lia|exact W|exact E].
    - exact nil_ok.
    - apply cons_ok; apply IH; lia.
    - intros k b b1 W E P M. apply bits_ok; [|exact W|exact E].
      intros v s sp0 I. apply (in_sum (fun '(v, (s, _)) => size v + match s with Some n => size n | None => 0 end)) in I.
      split; [apply IH; lia|]. destruct s; [apply IH; lia|exact Logic.I].
    - intros k b b1 W E P M. apply map_ok; [|exact W|exact E].
      intros x y I. apply (in_sum (fun '(a, b) => size a + size b)) in I.
      split; apply IH; lia.
    - intros k b b1 W E P M. apply block_ok; [apply SUB; lia|exact W|exact E].
    - intros k b b1 W E P M. apply call_ok; [apply IH; lia|apply SUB; lia|exact W|exact E].
    - intros k b b1 W E P M. apply remote_ok; [apply SUB; lia|exact W|exact E].
    - intros k b b1 W E P M. apply unary_ok; [apply IH; lia|exact W|exact P|exact E].
    - intros k b b1 W E P M. apply binary_ok; [apply IH; lia|apply IH; lia|exact W|exact E].
    - intros k b b1 W E P M. apply match_ok; [apply IH; lia|apply IH; lia|exact W|exact P|exact E].
    - intros k b b1 W E P M. apply fun_ok; [apply SUB; lia|exact W|exact E].
    - intros k b b1 W E P M. apply case_ok; [apply IH; lia| |exact W|exact E].
      intros p g body I.
      apply (in_sum (fun '(p, (g, b)) =>
          size p + match g with Some n => size n | None => 0 end + list_sum (map size b))) in I.
      split; [apply IH; lia|]. split; [destruct g; [apply IH; lia|exact Logic.I]|].
      apply SUB. lia. }
  split; [exact OK|]. apply tail_from; [exact OK|].
  destruct n; try exact I. cbn [size] in L. split; apply IH; lia.
Qed.
Lemma ok n : node_ok n.
Proof. apply (all_ok (S (size n)) n). lia. Qed.

(** ** Types *)
Fixpoint tree_size (t : tree) : nat :=
  S match t with
    | YNamed _ l | YRemote _ _ l | YTuple l | YUnion l => list_sum (map tree_size l)
    | YFun l t => list_sum (map tree_size l) + tree_size t
    | _ => 0
    end.
Definition type_ok (t : tree) : Prop := forall b b1,
  new_type b = Some b1 -> last b1 <> Some AtFunctionSpec ->
  runs (type_calls t) b (push_str (text_of (type_layout t)) b1).

Lemma type_children (pos : bool -> position) sep ps i (l : list tree) :
  (forall f, pos f <> AtFunctionSpec) ->
  (forall c first, new_type (Builder c (pos first :: ps) i) =
     Some (Builder (c ++ (if first then [] else text_of sep)) (pos false :: ps) i)) ->
  (forall t, In t l -> type_ok t) -> forall c first,
  runs (flat_map type_calls l) (Builder c (pos first :: ps) i)
    (Builder (c ++ text_of (items sep [] first (map type_layout l))) (pos (no_more first l) :: ps) i).
Proof.
  intros N E. induction l as [|t l IH]; intros OK c first.
  - cbn [map items text_of flat_map]. rewrite app_nil_r. apply runs_nil.
  - cbn [flat_map map items]. eapply runs_app.
    + apply (OK t (or_introl eq_refl) _ _ (E c first)). cbn. intro H. injection H. apply N.
    + eapply runs_sim; [apply IH; intros x I; apply OK; right; exact I|].
      cbn [no_more]. replace (no_more false l) with false by (destruct l; reflexivity).
      unfold sim. f_equal. unfold push_str. cbn [code]. f_equal. rewrite !text_of_app, <- !app_assoc.
      destruct first; reflexivity.
Qed.
Ltac type_kids pos sep OK :=
  eapply runs_app;
  [eapply (type_children pos sep); [intros; discriminate
    |intros ? []; ev; rewrite ?app_nil_r; reflexivity|exact OK]|].

Lemma fun_type_ok l t w ps i : (forall t, In t l -> type_ok t) -> type_ok t -> forall c,
  runs (flat_map type_calls l ++ [end_function_type_arguments] ++ type_calls t ++ [end_function_type])
    (Builder c (AtFunctionType (TypeArguments true) w :: ps) i)
    (Builder (c ++ text_of (items comma [] true (map type_layout l) ++ sy RParen ++
      sp ++ sy Arrow ++ sp ++ type_layout t) ++ (if w then str ")" else [])) ps i).
Proof.
  intros OK OKt c. type_kids (fun f => AtFunctionType (TypeArguments f) w) comma OK.
  eapply runs_cons; [ev; reflexivity|].
  eapply runs_app; [apply OKt; [ev; reflexivity|discriminate]|].
  apply runs_step. destruct w; ev; f_equal; same; rewrite ?app_nil_r; reflexivity.
Qed.

Lemma types_ok : forall m t, tree_size t < m -> type_ok t.
Proof.
  induction m as [|m IH]; intros t L; [lia|].
  assert (SUB : forall l, list_sum (map tree_size l) < m -> forall x, In x l -> type_ok x).
  { intros l S x I. apply IH. pose proof (in_sum tree_size l x I). lia. }
  intros b [c ps i] E N. destruct t; cbn [type_calls type_layout tree_size] in *.
  - apply runs_step. cbn [step]. rewrite E. same.
  - apply runs_step. cbn [step]. rewrite E. same.
  - eapply runs_cons; [cbn [step]; rewrite E; ev; reflexivity|].
    assert (OK : forall x, In x arguments -> type_ok x) by (apply SUB; lia).
    type_kids AtNamedType comma OK. finish.
  - eapply runs_cons; [cbn [step]; rewrite E; ev; reflexivity|].
    assert (OK : forall x, In x arguments -> type_ok x) by (apply SUB; lia).
    type_kids AtNamedType comma OK. finish.
  - eapply runs_cons; [cbn [step]; rewrite E; ev; reflexivity|].
    assert (OK : forall x, In x elements -> type_ok x) by (apply SUB; lia).
    type_kids AtTupleType comma OK. finish.
  - eapply runs_cons with (b := Builder (c ++ str "fun((") (AtFunctionType (TypeArguments true) true :: ps) i).
    { cbn [step]. rewrite E. cbn [last positions] in *. destruct ps as [|p ps]; [reflexivity|].
      cbn [hd_error] in *. destruct p; try reflexivity. contradiction N. reflexivity. }
    eapply runs_sim; [apply fun_type_ok; [apply SUB; lia|apply IH; lia]|]. same.
  - eapply runs_cons; [cbn [step]; rewrite E; ev; reflexivity|].
    assert (OK : forall x, In x alternatives -> type_ok x) by (apply SUB; lia).
    type_kids AtUnionType (sp ++ sy Bar ++ sp) OK. finish.
Qed.
Lemma any_type t : type_ok t.
Proof. apply (types_ok (S (tree_size t))). lia. Qed.

(** ** Forms *)
Lemma at_top c : new_top_level_form (Builder c [] 0) = Some (Builder c [] 0).
Proof. reflexivity. Qed.
Lemma text_of_one o t : text_of [(o, t)] = t.
Proof. apply app_nil_r. Qed.
Ltac form := cbn [step]; rewrite ?at_top; rewrite ?push_separated_text, ?args_text; f_equal.

Lemma exported_text l :
  text_of (items comma [] true (map var (map exported_item l))) =
  text_of (items comma [] true (map (fun '(f, a) => atm f ++ sy Slash ++ num a) l)).
Proof.
  rewrite map_map. apply items_text. intros [f a]. unfold exported_item. cbn [fst snd].
  same.
Qed.

Theorem top_runs f c : top_wf f ->
  runs (top_calls f) (Builder c [] 0) (Builder (c ++ text_of (top_layout f)) [] 0).
Proof.
  intro W. destruct f; cbn [top_calls top_layout top_wf] in *.
  - apply runs_step. destruct exported as [|e l]; [rewrite app_nil_r; reflexivity|].
    form. rewrite exported_text. unfold attribute, lex_exported, word_. rewrite !text_of_app, !text_of_one. same.
  - apply runs_step. destruct exported as [|e l]; [rewrite app_nil_r; reflexivity|].
    form. rewrite exported_text. unfold attribute, lex_exported, word_. rewrite !text_of_app, !text_of_one. same.
  - apply runs_step. form. unfold attribute, lex_doc, word_. rewrite !text_of_app.
    destruct content; rewrite ?text_of_one; unfold doc_content; same.
  - apply runs_step. form. unfold attribute, lex_doc, word_. rewrite !text_of_app.
    destruct content; rewrite ?text_of_one; unfold doc_content; same.
  - apply runs_step. form. unfold attribute, word_. rewrite !text_of_app, !text_of_one.
    rewrite (items_text comma [] var (fun a => [(Some (TAtom a), a)])) by reflexivity.
    same.
  - apply runs_step. form. unfold attribute, word_. rewrite !text_of_app, !text_of_one. same.
  - eapply runs_cons; [form; ev; reflexivity|]. destruct W as [_ W].
    change (0 + INDENT) with 4.
    assert (R : forall first c, runs
      (flat_map (fun '(f, t) => [record_field; atom f] ++ type_calls t) fields)
      (Builder c [AtRecordAttribute first] 4)
      (Builder (c ++ text_of (items (sy Comma) (nl 4) first (map (fun '(f, t) =>
          atm f ++ sp ++ sy ColonColon ++ sp ++ type_layout t) fields)))
        [AtRecordAttribute (no_more first fields)] 4)).
    { clear c W.
      induction fields as [|[f t] l IH]; intros first c.
      * cbn [map items text_of flat_map]. rewrite app_nil_r. apply runs_nil.
      * cbn [flat_map map items]. rewrite <- !app_assoc.
        eapply runs_cons with (b := Builder (c ++ (if first then [] else str ",") ++ text_of (nl 4))
            [AtRecordField FieldName; AtRecordAttribute false] 4).
        { destruct first; ev; f_equal; same. }
        eapply runs_cons; [ev; reflexivity|].
        eapply runs_app; [apply any_type; [ev; reflexivity|discriminate]|].
        eapply runs_sim; [apply IH|].
        cbn [no_more]. replace (no_more false l) with false by (destruct l; reflexivity).
        unfold sim. f_equal. unfold push_str. cbn [code]. f_equal. texts.
        rewrite <- !app_assoc. destruct first; reflexivity. }
    eapply runs_app; [apply R|].
    apply runs_step. ev. change (close_on_new_line (str "}).") (Builder ?c [] 4)) with
      (close_on_new_line (str "}).") (Builder c [] (0 + 4))). rewrite close_line. f_equal. unfold attribute, word_.
      rewrite !text_of_app, !text_of_one. same.
  - destruct W as (_ & _ & _). cbn [type_calls].
    eapply runs_cons; [form; ev; reflexivity|]. cbn [app].
    eapply runs_cons; [ev; reflexivity|].
    match goal with |- runs ?cs _ _ => replace cs with
      ((flat_map type_calls arguments ++ [end_function_type_arguments] ++ type_calls return_ ++
        [end_function_type]) ++ [end_function_spec])
      by (rewrite <- ?app_assoc; cbn [app]; rewrite <- ?app_assoc; reflexivity) end.
    eapply runs_app.
    { apply (fun_type_ok arguments return_ false [AtFunctionSpec] 0);
        [intros t _; apply any_type|apply any_type]. }
    apply runs_step. ev. f_equal. unfold word_. rewrite !text_of_app, !text_of_one. same.
  - eapply runs_cons with (b := Builder (c ++ text_of (nl 0 ++ sy Minus ++
        word_ (if opaque then "opaque" else "type") ++ sp ++ atm name ++
        sy LParen ++ items comma [] true (map var variables) ++ sy RParen ++ sp ++ sy ColonColon ++ sp))
        [AtTypeSpec TypeDefinition] 0).
    { form. unfold word_. rewrite !text_of_app, !text_of_one. destruct opaque; same. }
    eapply runs_app; [apply any_type; [ev; reflexivity|discriminate]|].
    eapply runs_sim; [apply runs_step; reflexivity|].
    unfold sim, pop_leftover_items. ev. cbn [pop_leftover]. rewrite !text_of_app. same.
  - destruct W as (_ & _ & _ & W).
    eapply runs_cons; [form; ev; reflexivity|].
    change (0 + INDENT) with 4. assert (OK : forall n, In n body -> node_ok n) by (intros; apply ok).
    kids AtFunctionStatement (sy Comma) (nl 4) OK W.
    apply runs_step. ev. change 4 with (0 + 4) at 3. rewrite unindent_add.
    cbn [option_map]. f_equal. same.
Qed.

Theorem module_runs l : each top_wf l -> forall c,
  runs (flat_map top_calls l) (Builder c [] 0) (Builder (c ++ text_of (flat_map top_layout l)) [] 0).
Proof.
  induction l as [|f l IH]; intros W c.
  - cbn. rewrite app_nil_r. apply runs_nil.
  - destruct W as [Wf W]. cbn [flat_map]. eapply runs_app; [apply top_runs, Wf|].
    eapply runs_sim; [apply IH, W|]. same.
Qed.

Definition header (module_name : option text) : lexemes :=
  match module_name with
  | Some name => attribute "module" (atm name) ++ nl 0
  | None => []
  end.
Theorem builds module_name l : each top_wf l ->
  build module_name (flat_map top_calls l) =
  Some (text_of (header module_name ++ flat_map top_layout l ++ nl 0)).
Proof.
  intro W. unfold build. destruct (module_runs l W (text_of (header module_name))) as (b & R & S).
  assert (N : new module_name = Builder (text_of (header module_name)) [] 0).
  { unfold new, header, attribute, word_. destruct module_name; [|reflexivity].
    rewrite !text_of_app, !text_of_one. same. }
  rewrite N, R. unfold into_output, close_currently_open_item. rewrite S. ev. 
  rewrite !text_of_app, <- app_assoc. reflexivity.
Qed.
