(** Proofs about the parsing of operators. *)
From Coq Require Import NArith Bool List Lia ZifyBool ZifyN ZifyNat.
From Verif Require Import Text Operators OperatorsSpec.
Import ListNotations.
Local Open Scope N_scope.

Section Generic.
Context {A C : Type} (unit_ : C -> list spanned -> result (option (A * list spanned)))
  (check : A -> list spanned -> option parse_error)
  (prec : token -> option N) (reject : spanned -> option parse_error) (context : token -> C)
  (reduce : spanned -> A -> A -> result A)
  (tight same : token -> token -> Prop) (operator : token -> Prop).
Hypothesis is_operator : forall t, operator t <-> prec t <> None.
Hypothesis is_tight : forall t u p q, prec t = Some p -> prec u = Some q -> (tight t u <-> q < p) /\ (same t u <-> p = q).
Hypothesis reduces : forall o x y, prec (the_token o) <> None -> reject o = None -> exists a, reduce o x y = Ok a.
Hypothesis answers : sensible unit_.

Inductive built : tree A -> A -> Prop :=
  | built_leaf a : built (Leaf a) a
  | built_node o l r x y a : built l x -> built r y -> reduce o x y = Ok a -> built (Node o l r) a.
Lemma built_same t a : built t a -> forall b, built t b -> a = b.
Proof.
  induction 1 as [a|o l r x y a Hl IHl Hr IHr E]; intros b Hb; inversion Hb; subst; [reflexivity|].
  rewrite (IHl _ H2), (IHr _ H4) in E. congruence.
Qed.

(** The operator of a tree binds tighter than [p], or is not looser. *)
Definition above (p : N) (t : tree A) : Prop :=
  match t with Leaf _ => True | Node o _ _ => exists q, prec (the_token o) = Some q /\ p < q end.
Definition not_below (p : N) (t : tree A) : Prop :=
  match t with Leaf _ => True | Node o _ _ => exists q, prec (the_token o) = Some q /\ p <= q end.
Notation grouped := (grouped tight same).
Lemma grouped_node o p l r : prec (the_token o) = Some p -> grouped l -> grouped r -> not_below p l -> above p r -> grouped (Node o l r).
Proof.
  intros Ho Gl Gr Nl Ar. cbn [OperatorsSpec.grouped]. split; [exact Gl|]. split; [exact Gr|]. split.
  - destruct l as [a|o' l1 l2]; [exact I|]. destruct Nl as (q & Hq & Hle).
    destruct (is_tight (the_token o') (the_token o) q p Hq Ho) as [T S]. destruct (N.eq_dec q p); [right; apply S; assumption|left; apply T; lia].
  - destruct r as [a|o' l1 l2]; [exact I|]. destruct Ar as (q & Hq & Hlt).
    apply (is_tight (the_token o') (the_token o) q p Hq Ho). lia.
Qed.

Definition top_below (p : N) (ops : list (spanned * N)) : Prop :=
  match ops with [] => True | (_, q) :: _ => q < p end.
Inductive stacked : list (spanned * N) -> list (tree A) -> list (item A) -> Prop :=
  | stacked_one t : grouped t -> stacked [] [t] (in_order t)
  | stacked_more o p ops t t' ts items : stacked ops (t' :: ts) items ->
      prec (the_token o) = Some p -> reject o = None -> grouped t -> not_below p t' -> above p t -> top_below p ops ->
      stacked ((o, p) :: ops) (t :: t' :: ts) (items ++ Op o :: in_order t).
Lemma stacked_grouped ops t ts items : stacked ops (t :: ts) items -> grouped t.
Proof. intros H. inversion H; subst; assumption. Qed.
Lemma merge o p ops t t' ts items : stacked ops (t' :: ts) items ->
  prec (the_token o) = Some p -> reject o = None -> grouped t -> not_below p t' -> above p t -> top_below p ops ->
  stacked ops (Node o t' t :: ts) (items ++ Op o :: in_order t).
Proof.
  intros S Ho Hr G N Ab T. inversion S as [t0 G0|o0 p0 ops0 t0 t1 ts0 items0 S0 Ho0 Hr0 G0 N0 A0 T0]; subst.
  - change (in_order t' ++ Op o :: in_order t) with (in_order (Node o t' t)). apply stacked_one.
    apply grouped_node with (p := p); assumption.
  - rewrite <- app_assoc. cbn [app]. change (in_order t' ++ Op o :: in_order t) with (in_order (Node o t' t)).
    apply stacked_more; try assumption; [apply grouped_node with (p := p); assumption|].
    exists p. split; [exact Ho|exact T].
Qed.
Lemma handle_some o p : prec (the_token o) = Some p -> forall ops ts es items,
  stacked ops ts items -> Forall2 built ts es -> match ts with t :: _ => not_below p t | [] => True end ->
  exists ops' t' ts' es',
    handle_operator reduce (Some (o, p)) ops es = Ok (None, (o, p) :: ops', es') /\
    Forall2 built (t' :: ts') es' /\ stacked ops' (t' :: ts') items /\ not_below p t' /\ top_below p ops'.
Proof.
  intros Ho. induction ops as [|[o1 p1] ops IH]; intros ts es items S B Nb.
  - inversion S; subst. exists [], t, [], es. cbn. repeat split; assumption.
  - inversion S as [|? ? ? t t' ts0 items0 S0 Ho1 Hr1 G N1 A1 T1]; subst.
    cbn [handle_operator]. destruct (p <=? p1) eqn:Ep.
    + inversion B as [|? y ? es1 By B1]; subst. inversion B1 as [|? x ? es2 Bx B2]; subst.
      unfold do_reduce. destruct (reduces o1 x y) as [a Ea]; [congruence|exact Hr1|]. rewrite Ea.
      apply (IH (Node o1 t' t :: ts0) (a :: es2)).
      * apply merge with (p := p1); assumption.
      * constructor; [|exact B2]. apply built_node with (x := x) (y := y); assumption.
      * exists p1. split; [exact Ho1|lia].
    + exists ((o1, p1) :: ops), t, (t' :: ts0), es. repeat split; try assumption. cbn. lia.
Qed.
Lemma handle_none : forall ops ts es items, stacked ops ts items -> Forall2 built ts es ->
  exists t a, handle_operator reduce None ops es = Ok (Some a, [], []) /\ grouped t /\ in_order t = items /\ built t a.
Proof.
  induction ops as [|[o1 p1] ops IH]; intros ts es items S B.
  - inversion S; subst. inversion B as [|? a ? es1 Ba B1]; subst. inversion B1; subst. exists t, a. repeat split; assumption.
  - inversion S as [|? ? ? t t' ts0 items0 S0 Ho1 Hr1 G N1 A1 T1]; subst.
    inversion B as [|? y ? es1 By B1]; subst. inversion B1 as [|? x ? es2 Bx B2]; subst.
    cbn [handle_operator]. unfold do_reduce. destruct (reduces o1 x y) as [a Ea]; [congruence|exact Hr1|]. rewrite Ea.
    apply (IH (Node o1 t' t :: ts0) (a :: es2)).
    + apply merge with (p := p1); assumption.
    + constructor; [|exact B2]. apply built_node with (x := x) (y := y); assumption.
Qed.

(** The state before an operand. *)
Inductive waiting : list (spanned * N) -> list A -> list (item A) -> option spanned -> Prop :=
  | waiting_first : waiting [] [] [] None
  | waiting_right o p ops t ts es items : prec (the_token o) = Some p -> reject o = None -> stacked ops (t :: ts) items ->
      Forall2 built (t :: ts) es -> not_below p t -> top_below p ops ->
      waiting ((o, p) :: ops) es (items ++ [Op o]) (Some o).
Lemma push ops es items last a : waiting ops es items last -> exists ts,
  stacked ops (Leaf a :: ts) (items ++ [Value a]) /\ Forall2 built (Leaf a :: ts) (a :: es).
Proof.
  intros W. destruct W as [|o p ops t ts es items Ho Hr S B N T].
  - exists []. split; [apply (stacked_one (Leaf a)); exact I|constructor; [constructor|constructor]].
  - exists (t :: ts). split; [|constructor; [constructor|exact B]].
    rewrite <- app_assoc. cbn [app]. change [Op o; Value a] with (Op o :: in_order (Leaf a)).
    apply stacked_more; try assumption; exact I.
Qed.
Definition span_of (last : option spanned) : span :=
  match last with Some (start, _, end_) => Span start end_ | None => Span 0 0 end.
Notation reads := (reads unit_ check operator reject context).
Notation fails := (fails unit_ check operator reject context).
Notation run := (parse_operators unit_ check prec reject context reduce).
Lemma loop fuel : forall c last ops es items ts, (length ts < fuel)%nat -> waiting ops es items last ->
  (exists more rest t a, reads c ts more rest /\ in_order t = items ++ more /\ grouped t /\ built t a /\
     run fuel c (span_of last) ops es ts = Ok (Some a, rest)) \/
  (exists e, fails c last ts e /\ run fuel c (span_of last) ops es ts = Err e) \/
  (last = None /\ unit_ c ts = Ok None /\ run fuel c (span_of last) ops es ts = Ok (None, ts)).
Proof.
  induction fuel as [|fuel IH]; intros c last ops es items ts Hf W; [lia|].
  cbn [parse_operators]. pose proof (answers c ts) as An. destruct (unit_ c ts) as [[[a rest]|]|e| |] eqn:Eu; try contradiction.
  - destruct (check a rest) as [e|] eqn:Ec.
    { right; left. exists e. split; [eapply fails_check; eassumption|reflexivity]. }
    destruct (push ops es items last a W) as (trees & S & B).
    assert (Fin : stops operator rest -> exists more rest' t a', reads c ts more rest' /\ in_order t = items ++ more /\ grouped t /\ built t a' /\
       match handle_operator reduce None ops (a :: es) with
       | Ok (e, _, _) => Ok (e, rest) | Err e => Err e | Panic => Panic | OutOfFuel => OutOfFuel end = Ok (Some a', rest')).
    { intros St. destruct (handle_none ops _ _ _ S B) as (t & a' & E & G & In_ & Bt). rewrite E.
      exists [Value a], rest, t, a'. split; [apply reads_last; assumption|]. auto. }
    destruct rest as [|[[start t] end_] ts'].
    { left. apply Fin. exact I. }
    destruct (prec t) as [p|] eqn:Ep.
    2: { left. apply Fin. cbn. rewrite is_operator. intros X. apply X. exact Ep. }
    assert (Op_ : operator (the_token (start, t, end_))) by (apply is_operator; cbn; congruence).
    destruct (reject (start, t, end_)) as [e|] eqn:Er.
    { right; left. exists e. split; [eapply fails_reject; eassumption|reflexivity]. }
    destruct (handle_some (start, t, end_) p Ep ops _ _ _ S B I) as (ops' & t' & ts2 & es' & E & B' & S' & N' & T').
    rewrite E. cbn [length] in An.
    specialize (IH (context t) (Some (start, t, end_)) ((start, t, end_, p) :: ops') es' ((items ++ [Value a]) ++ [Op (start, t, end_)]) ts').
    cbn [span_of] in IH. destruct IH as [(more & rest & tr & b & R & In_ & G & Bt & E')|[(e & F & E')|([=] & _)]]; [lia| | |].
    + apply (waiting_right _ p ops' t' ts2); assumption.
    + left. exists (Value a :: Op (start, t, end_) :: more), rest, tr, b.
      split; [apply reads_more with (ts' := ts'); assumption|]. split; [rewrite In_, <- !app_assoc; reflexivity|]. auto.
    + right; left. exists e. split; [eapply fails_later; eassumption|exact E'].
  - inversion W as [|o p ops' t ts' es' items' Ho Hr S B N T]; subst.
    + right; right. auto.
    + right; left. destruct o as [[start t0] end_]. exists (OpNakedRight (Span start end_)). split; [apply fails_missing; exact Eu|].
      inversion B; subst. reflexivity.
  - right; left. exists e. split; [apply fails_unit; exact Eu|reflexivity].
Qed.

(** ** There is one tree only *)
Lemma above_all p : forall t, grouped t -> above p t -> forall o, In (Op o) (in_order t) -> (forall o, In (Op o) (in_order t) -> prec (the_token o) <> None) ->
  exists q, prec (the_token o) = Some q /\ p < q.
Proof.
  induction t as [a|o l IHl r IHr]; intros G Ab o' Hin Hp; [destruct Hin as [[=]|[]]|].
  cbn [OperatorsSpec.grouped] in G. destruct G as (Gl & Gr & Tl & Tr). cbn [above] in Ab. destruct Ab as (q & Hq & Hlt).
  cbn [in_order] in Hin, Hp.
  assert (Hl : forall o, In (Op o) (in_order l) -> prec (the_token o) <> None) by (intros; apply Hp; apply in_or_app; auto).
  assert (Hr : forall o, In (Op o) (in_order r) -> prec (the_token o) <> None) by (intros; apply Hp; apply in_or_app; cbn; auto).
  assert (Root : forall t, (forall o, In (Op o) (in_order t) -> prec (the_token o) <> None) ->
    match t with Leaf _ => True | Node o1 _ _ => tight (the_token o1) (the_token o) \/ same (the_token o1) (the_token o) end -> above p t).
  { intros [a|o1 l1 r1] Ht Hts; [exact I|]. cbn [above].
    destruct (prec (the_token o1)) as [q1|] eqn:E1.
    - exists q1. split; [reflexivity|]. destruct (is_tight _ _ _ _ E1 Hq) as [T S]. destruct Hts as [X|X]; [apply T in X|apply S in X]; lia.
    - exfalso. apply (Ht o1); [cbn; apply in_or_app; right; left; reflexivity|exact E1]. }
  apply in_app_or in Hin. destruct Hin as [Hin|[[= <-]|Hin]].
  - apply IHl; try assumption. apply Root; [exact Hl|exact Tl].
  - exists q. auto.
  - apply IHr; try assumption. apply Root; [exact Hr|]. destruct r; [exact I|left; exact Tr].
Qed.
Lemma not_below_all p : forall t, grouped t -> not_below p t -> forall o, In (Op o) (in_order t) -> (forall o, In (Op o) (in_order t) -> prec (the_token o) <> None) ->
  exists q, prec (the_token o) = Some q /\ p <= q.
Proof.
  intros t G N o Hin Hp. destruct p as [|p']; [destruct (prec (the_token o)) as [q|] eqn:E; [exists q; split; [reflexivity|lia]|exfalso; exact (Hp o Hin E)]|].
  destruct (above_all (N.pred (N.pos p')) t G) with (o := o) as (q & Hq & Hlt); try assumption.
  - destruct t as [a|o1 l r]; [exact I|]. destruct N as (q & Hq & Hle). exists q. split; [exact Hq|lia].
  - exists q. split; [exact Hq|lia].
Qed.
Lemma in_order_cons (t : tree A) : exists x l, in_order t = x :: l.
Proof. induction t as [a|o l [x [k E]] r _]; cbn; [eauto|]. rewrite E. cbn. eauto. Qed.
Lemma app_split {X} (a1 a2 : list X) x1 x2 b1 b2 : a1 ++ x1 :: b1 = a2 ++ x2 :: b2 ->
  (a1 = a2 /\ x1 = x2 /\ b1 = b2) \/ (In x2 b1 /\ In x1 a2) \/ (In x1 b2 /\ In x2 a1).
Proof.
  revert a2. induction a1 as [|y a1 IH]; intros [|z a2] E; cbn in E; injection E as E1 E2; subst.
  - auto.
  - right; left. split; [apply in_or_app; right; left; reflexivity|left; reflexivity].
  - right; right. split; [apply in_or_app; right; left; reflexivity|left; reflexivity].
  - destruct (IH a2 E2) as [(-> & -> & ->)|[(H1 & H2)|(H1 & H2)]]; [auto| |]; right; [left|right]; split; try assumption; right; assumption.
Qed.
Theorem one_tree : forall t u : tree A, grouped t -> grouped u -> in_order t = in_order u ->
  (forall o, In (Op o) (in_order t) -> prec (the_token o) <> None) -> t = u.
Proof.
  induction t as [a|o l IHl r IHr]; intros [b|o' l' r'] Gt Gu E Hp.
  - cbn in E. congruence.
  - cbn in E. destruct (in_order_cons l') as (x & k & El). rewrite El in E. destruct k; discriminate.
  - cbn in E. destruct (in_order_cons l) as (x & k & El). rewrite El in E. destruct k; discriminate.
  - cbn [in_order] in *. cbn [OperatorsSpec.grouped] in Gt, Gu. destruct Gt as (Gl & Gr & Tl & Tr). destruct Gu as (Gl' & Gr' & Tl' & Tr').
    assert (Po : exists p, prec (the_token o) = Some p).
    { destruct (prec (the_token o)) eqn:X; [eauto|]. exfalso. apply (Hp o); [apply in_or_app; right; left; reflexivity|exact X]. }
    assert (Po' : exists p, prec (the_token o') = Some p).
    { destruct (prec (the_token o')) eqn:X; [eauto|]. exfalso. apply (Hp o'); [rewrite E; apply in_or_app; right; left; reflexivity|exact X]. }
    destruct Po as [p Po]. destruct Po' as [p' Po'].
    assert (Hl : forall o, In (Op o) (in_order l) -> prec (the_token o) <> None) by (intros; apply Hp; apply in_or_app; auto).
    assert (Hr : forall o, In (Op o) (in_order r) -> prec (the_token o) <> None) by (intros; apply Hp; apply in_or_app; cbn; auto).
    assert (Hl' : forall o, In (Op o) (in_order l') -> prec (the_token o) <> None) by (intros; apply Hp; rewrite E; apply in_or_app; auto).
    assert (Hr' : forall o, In (Op o) (in_order r') -> prec (the_token o) <> None) by (intros; apply Hp; rewrite E; apply in_or_app; cbn; auto).
    assert (Lok : forall l o p, prec (the_token o) = Some p -> (forall o, In (Op o) (in_order l) -> prec (the_token o) <> None) ->
      match l with Leaf _ => True | Node o1 _ _ => tight (the_token o1) (the_token o) \/ same (the_token o1) (the_token o) end -> not_below p l).
    { clear - is_tight. intros [a|o1 l1 r1] o p Po Hl Tl; [exact I|]. cbn [not_below]. destruct (prec (the_token o1)) as [q|] eqn:Eq.
      - exists q. split; [reflexivity|]. destruct (is_tight _ _ _ _ Eq Po) as [T S]. destruct Tl as [X|X]; [apply T in X|apply S in X]; lia.
      - exfalso. apply (Hl o1); [cbn; apply in_or_app; right; left; reflexivity|exact Eq]. }
    assert (Rok : forall r o p, prec (the_token o) = Some p -> (forall o, In (Op o) (in_order r) -> prec (the_token o) <> None) ->
      match r with Leaf _ => True | Node o1 _ _ => tight (the_token o1) (the_token o) end -> above p r).
    { clear - is_tight. intros [a|o1 l1 r1] o p Po Hl Tl; [exact I|]. cbn [above]. destruct (prec (the_token o1)) as [q|] eqn:Eq.
      - exists q. split; [reflexivity|]. destruct (is_tight _ _ _ _ Eq Po) as [T S]. apply T in Tl. exact Tl.
      - exfalso. apply (Hl o1); [cbn; apply in_or_app; right; left; reflexivity|exact Eq]. }
    destruct (app_split _ _ _ _ _ _ E) as [(E1 & [= <-] & E2)|[(H1 & H2)|(H1 & H2)]].
    + rewrite (IHl l' Gl Gl' E1 Hl), (IHr r' Gr Gr' E2 Hr). reflexivity.
    + exfalso. destruct (above_all p r Gr (Rok r o p Po Hr Tr) o' H1 Hr) as (q & Hq & Hlt).
      destruct (not_below_all p' l' Gl' (Lok l' o' p' Po' Hl' Tl') o H2 Hl') as (q' & Hq' & Hle). assert (q = p') by congruence. assert (q' = p) by congruence. lia.
    + exfalso. destruct (above_all p' r' Gr' (Rok r' o' p' Po' Hr' Tr') o H1 Hr') as (q & Hq & Hlt).
      destruct (not_below_all p l Gl (Lok l o p Po Hl Tl) o' H2 Hl) as (q' & Hq' & Hle). assert (q = p) by congruence. assert (q' = p') by congruence. lia.
Qed.

Lemma reads_same c ts i rest : reads c ts i rest -> forall i' rest', reads c ts i' rest' -> i = i' /\ rest = rest'.
Proof.
  induction 1 as [c ts a rest U Ch St|c ts a o ts' items rest U Ch Op_ Rj R IH]; intros i' rest' R';
    inversion R' as [? ? a2 rest2 U2 Ch2 St2|? ? a2 o2 ts2 items2 rest2 U2 Ch2 Op2 Rj2 R2]; subst.
  - rewrite U in U2. injection U2 as <- <-. auto.
  - exfalso. rewrite U in U2. injection U2 as <- ->. apply St. exact Op2.
  - exfalso. rewrite U in U2. injection U2 as <- <-. apply St2. exact Op_.
  - rewrite U in U2. injection U2 as <- <- <-. destruct (IH _ _ R2) as [<- <-]. auto.
Qed.
Lemma reads_ops c ts i rest : reads c ts i rest -> forall o, In (Op o) i -> prec (the_token o) <> None.
Proof.
  induction 1 as [c ts a rest U Ch St|c ts a o ts' items rest U Ch Op_ Rj R IH]; intros o' Hin.
  - destruct Hin as [[=]|[]].
  - destruct Hin as [[=]|[[= <-]|Hin]]; [apply is_operator; exact Op_|apply IH; exact Hin].
Qed.
Lemma reads_not_fails c last ts i rest e : reads c ts i rest -> fails c last ts e -> False.
Proof.
  intros R. revert last e. induction R as [c ts a rest U Ch St|c ts a o ts' items rest U Ch Op_ Rj R IH]; intros last e F;
    inversion F as [? ? ? ? U2|? ? ? ? ? U2|? ? ? a2 r2 ? U2 Ch2|? ? ? a2 o2 t2 ? U2 Ch2 Op2 Rj2|? ? ? a2 o2 t2 ? U2 Ch2 Op2 Rj2 F2]; subst;
    rewrite U in U2; try discriminate.
  - injection U2 as <- <-. congruence.
  - injection U2 as <- ->. exact (St Op2).
  - injection U2 as <- ->. exact (St Op2).
  - injection U2 as <- <-. congruence.
  - injection U2 as <- <- <-. congruence.
  - injection U2 as <- <- <-. exact (IH _ _ F2).
Qed.
Lemma fails_same c last ts e : fails c last ts e -> forall e', fails c last ts e' -> e = e'.
Proof.
  induction 1 as [c last ts e U|c start t end_ ts U|c last ts a rest e U Ch|c last ts a o ts' e U Ch Op_ Rj|c last ts a o ts' e U Ch Op_ Rj F IH];
    intros e' F'; inversion F' as [? ? ? ? U2|? ? ? ? ? U2|? ? ? a2 r2 ? U2 Ch2|? ? ? a2 o2 t2 ? U2 Ch2 Op2 Rj2|? ? ? a2 o2 t2 ? U2 Ch2 Op2 Rj2 F2]; subst;
    rewrite U in U2; try discriminate; try congruence.
  injection U2 as <- <- <-. apply IH. exact F2.
Qed.

Theorem parse_spec c ts : 
  let result := parse unit_ check prec reject context reduce c ts in
  (forall a rest, result = Ok (Some a, rest) <-> exists t, reads c ts (in_order t) rest /\ grouped t /\ built t a) /\
  (forall rest, result = Ok (None, rest) <-> unit_ c ts = Ok None /\ rest = ts) /\
  (forall e, result = Err e <-> fails c None ts e) /\
  result <> Panic /\ result <> OutOfFuel.
Proof.
  intros result. subst result. unfold parse. change (Span 0 0) with (span_of None).
  destruct (loop (S (length ts)) c None [] [] [] ts) as [(more & rest & t & a & R & In_ & G & B & E)|[(e & F & E)|(_ & U & E)]]; [lia|constructor| | |];
    rewrite E.
  - cbn [app] in In_. subst more. split; [|split; [|split; [|split; discriminate]]].
    + intros a' rest'. split.
      * intros [= <- <-]. exists t. auto.
      * intros (u & R' & G' & B'). destruct (reads_same _ _ _ _ R _ _ R') as [Ei <-].
        assert (t = u) by (apply one_tree; try assumption; eapply reads_ops; exact R). subst u.
        rewrite (built_same _ _ B _ B'). reflexivity.
    + intros rest'. split; [discriminate|]. intros [U _]. exfalso. inversion R; congruence.
    + intros e. split; [discriminate|]. intros F. exfalso. exact (reads_not_fails _ _ _ _ _ _ R F).
  - split; [|split; [|split; [|split; discriminate]]].
    + intros a' rest'. split; [discriminate|]. intros (u & R' & _). exfalso. exact (reads_not_fails _ _ _ _ _ _ R' F).
    + intros rest'. split; [discriminate|]. intros [U _]. exfalso. inversion F; congruence.
    + intros e'. split; [intros [= <-]; exact F|]. intros F'. rewrite (fails_same _ _ _ _ F _ F'). reflexivity.
  - split; [|split; [|split; [|split; discriminate]]].
    + intros a' rest'. split; [discriminate|]. intros (u & R' & _). exfalso. inversion R'; congruence.
    + intros rest'. split; [intros [= <-]; auto|intros [_ ->]; reflexivity].
    + intros e'. split; [discriminate|]. intros F. exfalso. inversion F; congruence.
Qed.
End Generic.

(** ** The table *)
Lemma precedence_row t n : row t n <-> precedence t = Some (N.of_nat (S n)).
Proof.
  split.
  - intros (ts & E & I). destruct n as [|[|[|[|[|[|[|[|n]]]]]]]]; cbn in E;
      [injection E as <-; cbn in I; repeat (destruct I as [<-|I]; [reflexivity|]); contradiction..|].
    destruct n; discriminate.
  - intros H. destruct t; cbn in H; try discriminate; injection H as H;
      match goal with |- row ?t _ => assert (X : n = (match precedence t with Some p => N.to_nat p - 1 | None => 0 end)%nat) by (cbn; lia) end;
      rewrite X; cbn; eexists; (split; [reflexivity|]); cbn; auto 10.
Qed.
Lemma guard_row t n : row t n -> guard_precedence t = match t with Pipe => None | _ => Some (N.of_nat (if Nat.leb n 4 then S n else n)) end.
Proof.
  intros H. apply precedence_row in H. destruct t; cbn in H; try discriminate; injection H as H;
    match goal with |- guard_precedence ?t = _ => assert (X : n = (match precedence t with Some p => N.to_nat p - 1 | None => 0 end)%nat) by (cbn; lia) end;
    (rewrite X; reflexivity) || reflexivity.
Qed.
Lemma precedence_operator t : any_operator t <-> precedence t <> None.
Proof.
  split.
  - intros [n H]. apply precedence_row in H. congruence.
  - intros H. destruct (precedence t) as [p|] eqn:E; [|contradiction]. exists (N.to_nat p - 1)%nat. apply precedence_row. rewrite E. f_equal.
    destruct t; cbn in E; try discriminate; injection E as <-; reflexivity.
Qed.
Lemma row_same t m n : row t m -> row t n -> m = n.
Proof. intros H1 H2. apply precedence_row in H1. apply precedence_row in H2. assert (X : N.of_nat (S m) = N.of_nat (S n)) by congruence. lia. Qed.
Lemma precedence_tight t u p q : precedence t = Some p -> precedence u = Some q -> (tighter t u <-> q < p) /\ (same_row t u <-> p = q).
Proof.
  intros Ht Hu.
  assert (Rt : exists m, row t m) by (apply precedence_operator; congruence).
  assert (Ru : exists m, row u m) by (apply precedence_operator; congruence).
  destruct Rt as [m Rt]. destruct Ru as [n Ru]. pose proof Rt as Pt. pose proof Ru as Pu. apply precedence_row in Pt. apply precedence_row in Pu.
  assert (p = N.of_nat (S m)) by congruence. assert (q = N.of_nat (S n)) by congruence. subst p q. split; split.
  - intros (m' & n' & H1 & H2 & H3). rewrite (row_same _ _ _ Rt H1), (row_same _ _ _ Ru H2). lia.
  - intros H. exists m, n. split; [exact Rt|]. split; [exact Ru|lia].
  - intros (k & H1 & H2). rewrite (row_same _ _ _ Rt H1), (row_same _ _ _ Ru H2). reflexivity.
  - intros H. assert (m = n) by lia. subst. exists n. auto.
Qed.
Lemma guard_is_operator t : guard_operator t <-> guard_precedence t <> None.
Proof.
  unfold guard_operator. rewrite precedence_operator. destruct t; cbn; split; try tauto; try (intros _; discriminate); try (intros _; split; discriminate).
Qed.
Lemma guard_tight t u p q : guard_precedence t = Some p -> guard_precedence u = Some q -> (tighter t u <-> q < p) /\ (same_row t u <-> p = q).
Proof.
  intros Ht Hu.
  assert (Ot : guard_operator t) by (apply guard_is_operator; congruence). destruct Ot as [[m Rt] Pt].
  assert (Ou : guard_operator u) by (apply guard_is_operator; congruence). destruct Ou as [[n Ru] Pu].
  rewrite (guard_row t m Rt) in Ht. rewrite (guard_row u n Ru) in Hu.
  assert (m <> 5%nat) by (intros ->; apply precedence_row in Rt; destruct t; cbn in Rt; congruence).
  assert (n <> 5%nat) by (intros ->; apply precedence_row in Ru; destruct u; cbn in Ru; congruence).
  assert (p = N.of_nat (if Nat.leb m 4 then S m else m)) by (destruct t; congruence).
  assert (q = N.of_nat (if Nat.leb n 4 then S n else n)) by (destruct u; congruence).
  subst p q. split; split.
  - intros (m' & n' & H1 & H2 & H3). rewrite (row_same _ _ _ Rt H1), (row_same _ _ _ Ru H2) in *. destruct (Nat.leb m' 4) eqn:?, (Nat.leb n' 4) eqn:?; lia.
  - intros X. exists m, n. split; [exact Rt|]. split; [exact Ru|]. destruct (Nat.leb m 4) eqn:?, (Nat.leb n 4) eqn:?; lia.
  - intros (k & H1 & H2). rewrite (row_same _ _ _ Rt H1), (row_same _ _ _ Ru H2). reflexivity.
  - intros X. assert (m = n) by (destruct (Nat.leb m 4) eqn:?, (Nat.leb n 4) eqn:?; lia). subst. exists n. auto.
Qed.
Lemma size_is_operator t : size_operator t <-> size_precedence t <> None.
Proof.
  unfold size_operator. destruct t; cbn; split; try tauto; try (intros _; discriminate);
    intros H; repeat (destruct H as [H|H]; [discriminate|]); contradiction.
Qed.
Lemma size_prec t p : size_precedence t = Some p -> precedence t = Some p.
Proof. destruct t; cbn; congruence. Qed.
Lemma size_tight t u p q : size_precedence t = Some p -> size_precedence u = Some q -> (tighter t u <-> q < p) /\ (same_row t u <-> p = q).
Proof. intros Ht Hu. apply precedence_tight; apply size_prec; assumption. Qed.

(** ** What is built *)
Definition plain (e : expr) : Prop := match e with EPipeline _ _ => False | _ => True end.
Lemma chain_pipe t : (exists c, chain t = Some c) <-> match t with Node o _ _ => the_token o = Pipe | Leaf _ => False end.
Proof.
  destruct t as [a|[[s t] e] l r]; [split; [intros [c [=]]|contradiction]|].
  cbn. destruct t; split; try discriminate; try (intros [c [=]]); try reflexivity.
  intros _. destruct (chain l) as [[f os]|]; eauto.
Qed.
Lemma built_pipeline t a : built expression_operator_reduction t a -> (forall e, In (Value e) (in_order t) -> plain e) ->
  ~ plain a <-> exists c, chain t = Some c.
Proof.
  intros B Hp. rewrite chain_pipe. destruct B as [a|[[s t] e] l r x y a Bl Br E].
  - split; [|contradiction]. intros H. apply H. apply Hp. left. reflexivity.
  - unfold expression_operator_reduction in E. cbn [the_token fst snd] in *.
    destruct t; cbn in E; try discriminate; try (injection E as <-; cbn; split; [intros H; exfalso; apply H; exact I|discriminate]).
    split; [reflexivity|]. intros _. destruct x; injection E as <-; cbn; tauto.
Qed.
Lemma stands_is_built t : (forall e, In (Value e) (in_order t) -> plain e) ->
  forall a, stands_for t a <-> built expression_operator_reduction t a.
Proof.
  induction t as [e|[[s t] e] l IHl r IHr]; intros Hp a.
  - split; intros H; inversion H; subst; try constructor. discriminate.
  - assert (Hl : forall e, In (Value e) (in_order l) -> plain e) by (intros; apply Hp; cbn; apply in_or_app; auto).
    assert (Hr : forall e, In (Value e) (in_order r) -> plain e) by (intros; apply Hp; cbn; apply in_or_app; cbn; auto).
    specialize (IHl Hl). specialize (IHr Hr). split.
    + intros H. inversion H as [|? ? ? o ? ? x y Ho Sl Sr|? first others x ys Ec Sf So]; subst.
      * apply built_node with (x := x) (y := y); [apply IHl; exact Sl|apply IHr; exact Sr|].
        unfold expression_operator_reduction. cbn [the_token the_start fst snd]. destruct t; cbn in *; try discriminate; injection Ho as <-; reflexivity.
      * cbn in Ec. destruct t; try discriminate. destruct (chain l) as [[f os]|] eqn:El.
        -- injection Ec as <- <-. apply Forall2_app_inv_l in So. destruct So as (ys1 & ys2 & S1 & S2 & ->).
           inversion S2 as [|? y ? ys3 Sy S3]; subst. inversion S3; subst.
           apply built_node with (x := EPipeline x ys1) (y := y); [apply IHl; apply (stands_pipeline l f os); assumption|apply IHr; exact Sy|reflexivity].
        -- injection Ec as <- <-. inversion So as [|? y ? ys3 Sy S3]; subst. inversion S3; subst.
           apply built_node with (x := x) (y := y); [apply IHl; exact Sf|apply IHr; exact Sy|].
           apply IHl in Sf. pose proof (built_pipeline l x Sf Hl) as P.
           unfold expression_operator_reduction. cbn [the_token fst snd]. destruct x; try reflexivity.
           exfalso. destruct P as [P _]. destruct P as [c X]; [cbn; tauto|congruence].
    + intros B. inversion B as [|? ? ? x y ? Bl Br E]; subst. apply IHl in Bl as Sl. apply IHr in Br.
      unfold expression_operator_reduction in E. cbn [the_token the_start fst snd] in E.
      assert (X : t <> Pipe -> stands_for (Node (s, t, e) l r) a).
      { intros Np. assert (Eb : exists o, token_to_binop t = Some o /\ a = EBinOp (Span (s_start (location x)) (s_end (location y))) o s x y).
        { destruct t; cbn in E; try discriminate; try contradiction; injection E as <-; eexists; (split; [reflexivity|reflexivity]). }
        destruct Eb as (o & Eo & ->). apply stands_binop; assumption. }
      destruct t; try (apply X; discriminate). clear X.
      pose proof (built_pipeline l x Bl Hl) as P. destruct (chain l) as [[f os]|] eqn:El.
      * assert (Nx : ~ plain x) by (apply P; eauto). destruct x; try (exfalso; apply Nx; exact I). injection E as <-.
        inversion Sl as [|? ? ? o ? ? x0 y0 Ho Sl0 Sr0|? first0 others0 x0 ys0 Ec Sf So]; subst.
        -- discriminate.
        -- rewrite El in Ec. injection Ec as <- <-. apply (stands_pipeline _ f (os ++ [r])).
           ++ cbn. rewrite El. reflexivity.
           ++ exact Sf.
           ++ apply Forall2_app; [exact So|]. constructor; [exact Br|constructor].
      * assert (Px : plain x) by (destruct x; try exact I; exfalso; destruct P as [P _]; destruct P as [c X]; [cbn; tauto|congruence]).
        assert (a = EPipeline x [y]) by (destruct x; try contradiction; congruence). subst a.
        apply (stands_pipeline _ l [r]); [cbn; rewrite El; reflexivity|exact Sl|constructor; [exact Br|constructor]].
Qed.
Lemma operation_is_built {O} (find : token -> option O) t : forall a, is_operation find t a <-> built (operation_reduction find) t a.
Proof.
  induction t as [e|[[s t] e] l IHl r IHr]; intros a.
  - split; intros H; inversion H; subst; constructor.
  - split.
    + intros H. inversion H as [|? ? ? o ? ? x y Ho Sl Sr]; subst. apply built_node with (x := x) (y := y); [apply IHl; exact Sl|apply IHr; exact Sr|].
      unfold operation_reduction. cbn [the_token the_start fst snd]. rewrite Ho. reflexivity.
    + intros B. inversion B as [|? ? ? x y ? Bl Br E]; subst. unfold operation_reduction in E. cbn [the_token the_start fst snd] in E.
      destruct (find t) as [o|] eqn:Ef; [|discriminate]. injection E as <-. constructor; [exact Ef|apply IHl; exact Bl|apply IHr; exact Br].
Qed.

Lemma reads_values {A C} (unit_ : C -> list spanned -> result (option (A * list spanned))) check operator reject context (P : A -> Prop) c ts i rest :
  (forall c ts a rest, unit_ c ts = Ok (Some (a, rest)) -> P a) -> reads unit_ check operator reject context c ts i rest ->
  forall a, In (Value a) i -> P a.
Proof.
  intros H. induction 1 as [c ts a rest U Ch St|c ts a o ts' items rest U Ch Op_ Rj R IH]; intros b Hb.
  - destruct Hb as [[= <-]|[]]. eapply H; exact U.
  - destruct Hb as [[= <-]|[[=]|Hb]]; [eapply H; exact U|apply IH; exact Hb].
Qed.
Lemma reads_ext {A C} (unit_ : C -> list spanned -> result (option (A * list spanned))) ch ch' operator rj rj' cx cx' :
  (forall a ts, ch a ts = ch' a ts) -> (forall o, rj o = rj' o) -> (forall t, cx t = cx' t) ->
  forall c ts i rest, reads unit_ ch operator rj cx c ts i rest -> reads unit_ ch' operator rj' cx' c ts i rest.
Proof.
  intros E1 E2 E3. induction 1 as [c ts a rest U Ch St|c ts a o ts' items rest U Ch Op_ Rj R IH].
  - apply reads_last; try assumption. rewrite <- E1. exact Ch.
  - apply reads_more with (ts' := ts'); try assumption; [rewrite <- E1; exact Ch|rewrite <- E2; exact Rj|rewrite <- E3; exact IH].
Qed.
Lemma fails_ext {A C} (unit_ : C -> list spanned -> result (option (A * list spanned))) ch ch' operator rj rj' cx cx' :
  (forall a ts, ch a ts = ch' a ts) -> (forall o, rj o = rj' o) -> (forall t, cx t = cx' t) ->
  forall c last ts e, fails unit_ ch operator rj cx c last ts e -> fails unit_ ch' operator rj' cx' c last ts e.
Proof.
  intros E1 E2 E3. induction 1 as [c last ts e U|c start t end_ ts U|c last ts a rest e U Ch|c last ts a o ts' e U Ch Op_ Rj|c last ts a o ts' e U Ch Op_ Rj F IH].
  - apply fails_unit. exact U.
  - apply fails_missing. exact U.
  - apply fails_check with (a := a) (rest := rest); [exact U|rewrite <- E1; exact Ch].
  - apply fails_reject with (a := a) (o := o) (ts' := ts'); try assumption; [rewrite <- E1; exact Ch|rewrite <- E2; exact Rj].
  - apply fails_later with (a := a) (o := o) (ts' := ts'); try assumption; [rewrite <- E1; exact Ch|rewrite <- E2; exact Rj|rewrite <- E3; exact IH].
Qed.
