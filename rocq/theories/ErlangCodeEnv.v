(** Variables of Gleam and of Erlang while code runs, and guards. *)
From Coq Require Import String NArith ZArith List Bool Lia Permutation ZifyBool ZifyN ZifyNat.
From Verif Require Import Text TextProofs Strings StringsSpec StringsProofs Erl ErlangSource ErlangSourceSpec ErlangTypes
  ErlangCode ErlangRun ErlangRunProofs ErlangCodeSpec ErlangCodeTree ErlangCodeCalls ErlangCodeNames ErlangCodeState ErlangCodeRel.
Import ListNotations.
Local Open Scope nat_scope.
Local Open Scope list_scope.

(** ** Bindings that are new *)

Definition news (s s' : state) (b : env) : Prop := forall y, In y (map fst b) -> allocated s' y /\ ~ allocated s y.
Lemma start_allocated used s s' y : at_start used s s' -> allocated s y -> allocated s' y.
Proof.
  intros (A & B & _) [(x & k & X & L & ->)|(k & L & ->)]; [left; exists x, k|right; exists k].
  - split; [exact X|]. split; [specialize (A x); lia|reflexivity].
  - split; [lia|reflexivity].
Qed.
Lemma news_nil s s' : news s s' [].
Proof. intros y []. Qed.
Lemma news_later used s s1 s2 b : at_start used s1 s2 -> news s s1 b -> news s s2 b.
Proof. intros A N y Y. destruct (N y Y). split; [eapply start_allocated; eassumption|assumption]. Qed.
Lemma news_earlier used s s1 s2 b : at_start used s s1 -> news s1 s2 b -> news s s2 b.
Proof. intros A N y Y. destruct (N y Y) as [P Q]. split; [exact P|]. intro. apply Q. eapply start_allocated; eassumption. Qed.
Lemma news_app s s' b1 b2 : news s s' b1 -> news s s' b2 -> news s s' (b2 ++ b1).
Proof. intros A B y Y. rewrite map_app in Y. apply in_app_iff in Y. destruct Y; auto. Qed.
Lemma disjoint_keys (l m : env) : (forall y, In y (map fst l) -> ~ In y (map fst m)) -> disjoint l m = true.
Proof.
  intro H. unfold disjoint. apply forallb_forall. intros [y t] I. cbn. rewrite lookup_none; [reflexivity|]. apply H, in_map_iff. exists (y, t). auto.
Qed.
Lemma news_disjoint s s1 s2 b1 b2 : news s s1 b1 -> news s1 s2 b2 -> disjoint b1 b2 = true.
Proof. intros A B. apply disjoint_keys. intros y Y Z. destruct (A y Y), (B y Z). contradiction. Qed.
Lemma news_two used s s1 s2 b1 b2 : at_start used s s1 -> at_start used s1 s2 -> news s s1 b1 -> news s1 s2 b2 -> news s s2 (b2 ++ b1).
Proof. intros A A' N N'. apply news_app; [eapply news_later; eassumption|eapply news_earlier; eassumption]. Qed.

Lemma rho_inj s x y : legal_name x -> legal_name y -> rho s x = rho s y -> x = y.
Proof. intros X Y E. unfold rho in E. apply mk_injective in E; [tauto|apply X|apply Y]. Qed.
Lemma rho_plain s x : legal_name x -> rho s x <> str "_".
Proof. intro X. apply mk_not_discard, X. Qed.

Section Env.
Context (module path : text) (lines : N -> N).
Notation ctx fn := (Context module path fn lines).
Notation vrel := (vrel module path lines).

Definition env_ok (used : list span) (vars : scope) (s : state) (genv : variables) (eenv : env) : Prop :=
  incl (map snd vars) used /\ resolves vars s /\
  (forall x l, lookup x vars = Some l -> exists y v t,
     place s l = Some y /\ lookup x genv = Some v /\ lookup y eenv = Some t /\ vrel v t) /\
  (forall y, In y (map fst eenv) -> allocated s y).

Lemma env_ext used vars s genv e1 e2 : (forall y, lookup y e1 = lookup y e2) -> (forall y, In y (map fst e2) -> In y (map fst e1)) ->
  env_ok used vars s genv e1 -> env_ok used vars s genv e2.
Proof.
  intros E K (A & B & C & D). repeat split; auto. intros x l L. destruct (C x l L) as (y & v & t & P & Q & R & V). exists y, v, t.
  rewrite <- E. auto.
Qed.
Lemma env_extended used vars s s1 genv eenv b : env_ok used vars s genv eenv -> at_start used s s1 -> news s s1 b ->
  env_ok used vars s1 genv (b ++ eenv).
Proof.
  intros (A & B & C & D) S N. repeat split; [exact A|eapply start_resolves; eassumption| |].
  - intros x l L. destruct (C x l L) as (y & v & t & P & Q & R & V). exists y, v, t. destruct S as (_ & _ & S). rewrite S.
    + split; [exact P|]. split; [exact Q|]. split; [|exact V]. rewrite lookup_app, lookup_none; [exact R|]. intro I.
      apply (N y I). apply D. eapply lookup_key, R.
    + apply A, in_map_iff. exists (x, l). split; [reflexivity|]. apply lookup_in, L.
  - intros y Y. rewrite map_app in Y. apply in_app_iff in Y. destruct Y as [Y|Y]; [apply N, Y|]. eapply start_allocated; [exact S|apply D, Y].
Qed.
Lemma env_later used vars s s1 genv eenv : env_ok used vars s genv eenv -> at_start used s s1 -> env_ok used vars s1 genv eenv.
Proof. intros H S. apply (env_extended used vars s s1 genv eenv [] H S). apply news_nil. Qed.
Lemma env_used used used' vars s genv eenv : incl used used' -> env_ok used vars s genv eenv -> env_ok used' vars s genv eenv.
Proof. intros I (A & B). split; [|exact B]. intros x X. apply I, A, X. Qed.

(** Variables that are bound together. *)
Lemma env_bind used vars s sm genv eenv new gb B : env_ok used vars s genv eenv -> at_start used s sm ->
  fresh used new -> (forall x l, In (x, l) new -> place sm l = Some (rho s x)) ->
  (forall x, In x (map fst gb) -> In x (map fst new)) ->
  (forall x, In x (map fst new) -> exists v t, lookup x gb = Some v /\ lookup (rho s x) B = Some t /\ vrel v t) ->
  news s sm B ->
  env_ok (map snd new ++ used) (new ++ vars) sm (gb ++ genv) (B ++ eenv).
Proof.
  intros H S F P K V N. assert (H' := env_extended _ _ _ _ _ _ _ H S N). destruct H' as (A & R & C & D). repeat split.
  - apply incl_new, A.
  - intros x l I. apply in_app_iff in I. destruct I as [I|I]; [rewrite (P x l I); discriminate|apply (R x l I)].
  - intros x l L. rewrite lookup_app in L. destruct (lookup x new) as [l'|] eqn:E.
    + injection L as ->. apply lookup_in in E. assert (IX : In x (map fst new)) by (apply in_map_iff; exists (x, l); auto).
      destruct (V x IX) as (v & t & V1 & V2 & V3). exists (rho s x), v, t. rewrite ! lookup_app, V1, V2. split; [apply P, E|]. auto.
    + destruct (C x l L) as (y & v & t & Q1 & Q2 & Q3 & Q4). exists y, v, t. split; [exact Q1|]. split; [|auto]. rewrite lookup_app.
      rewrite (lookup_none x gb); [exact Q2|]. intro I. apply K in I. apply in_map_iff in I. destruct I as ([x' l'] & EX & I). cbn in EX. subst x'.
      clear - E I. induction new as [|[z m] new IH]; [destruct I|]. cbn in E. destruct (text_eqb x z) eqn:T; [discriminate|].
      destruct I as [I|I]; [injection I as <- <-; rewrite text_eqb_refl in T; discriminate|auto].
  - exact D.
Qed.

(** ** Meanings *)

Lemma meaning_not_string n : is_estring (meaning n) = false.
Proof.
  destruct n; try reflexivity.
  - cbn. unfold int_meaning. destruct (z <? 0)%Z; reflexivity.
  - cbn. unfold float_meaning. destruct (negative f); [reflexivity|]. destruct (_ && _); reflexivity.
  - cbn. destruct (meaning n1); reflexivity.
Qed.
Definition is_string (n : node) : bool := match n with NString _ _ => true | _ => false end.
Lemma segment_value n l : is_string n = false ->
  meaning (NBits ((n, (None, [Binary])) :: l)) =
  EBits ((meaning n, (None, [bin])) ::
    match meaning (NBits l) with EBits l => l | _ => [] end).
Proof. destruct n; try discriminate; reflexivity. Qed.

Section Run.
Context (forms : list form) (world : history -> text -> text -> list term -> option term).
Notation runs := (runs forms world).

Lemma runs_int bound h z : runs bound h (int_meaning z) (h, inl (VInt z, [])).
Proof using forms world.
  clear module path lines. unfold int_meaning. destruct (z <? 0)%Z eqn:E; cbn [signed].
  - eapply runs_unary; [apply runs_nat|]. cbn [negate]. f_equal. f_equal. lia.
  - replace (VInt z) with (VInt (Z.of_N (Z.abs_N z))) by (f_equal; lia). apply runs_nat.
Qed.

Lemma rel_nth vs : forall ts i v, nth_error vs i = Some v -> Forall2 vrel vs ts -> exists t, nth_error ts i = Some t /\ vrel v t.
Proof.
  induction vs as [|a vs IH]; intros ts i v E F; [destruct i; discriminate|]. inversion F; subst. destruct i; cbn in *; [|eapply IH; eassumption].
  injection E as <-. eauto.
Qed.

(** One side of a concatenation. *)
Inductive side (bound : env) (h : history) : node -> list specifier -> history -> text -> env -> Prop :=
| side_literal w : side bound h (string_node w) [Utf8] h (unescaped w) []
| side_value n h' t b : is_string n = false -> runs bound h (meaning n) (h', inl (VBinary t, b)) -> side bound h n [Binary] h' t b.
Lemma segment_meaning n sp l : meaning (NBits ((n, (None, sp)) :: l)) =
  EBits ((if is_string n then match n with NString _ v => EString v | _ => meaning n end else meaning n, (None, specifiers_meaning sp)) ::
    match meaning (NBits l) with EBits l => l | _ => [] end).
Proof. destruct n; reflexivity. Qed.
Lemma concat_runs bound h n1 sp1 h1 t1 b1 n2 sp2 h2 t2 b2 : side bound h n1 sp1 h1 t1 b1 -> side bound h1 n2 sp2 h2 t2 b2 ->
  disjoint b1 b2 = true ->
  runs bound h (meaning (NBits [(n1, (None, sp1)); (n2, (None, sp2))])) (h2, inl (VBinary (t1 ++ t2), b2 ++ b1)).
Proof.
  intros A B D. rewrite segment_meaning. rewrite (segment_meaning n2 sp2 []).
  apply (runs_bits forms world bound h _ (h2, inl (t1 ++ t2, b2 ++ b1))).
  assert (S2 : segments_run forms world bound h1 [(if is_string n2 then match n2 with NString _ v => EString v | _ => meaning n2 end else meaning n2, (None, specifiers_meaning sp2))] (h2, inl (t2, b2))).
  { destruct B as [w|n h' t b N R].
    - assert (X := segments_literal forms world bound h1 (unescaped w) [] _ (segments_nil _ _ _ _)). unfold lift in X. cbn [fst snd] in X.
      rewrite app_nil_r in X. exact X.
    - rewrite N. assert (X := segments_value forms world bound h1 (meaning n) [] h' t b h' [] [] (meaning_not_string n) R (segments_nil _ _ _ _)). rewrite app_nil_r in X. apply X.
      apply disjoint_keys. intros ? ? []. }
  destruct A as [w|n h' t b N R].
  - assert (X := segments_literal forms world bound h (unescaped w) _ _ S2). unfold lift in X. cbn [fst snd] in X. rewrite app_nil_r. exact X.
  - rewrite N. eapply segments_value; [apply meaning_not_string|exact R|exact S2|exact D].
Qed.
Lemma concat_left_fails bound h n1 h1 t rest : is_string n1 = false -> runs bound h (meaning n1) (h1, inr t) ->
  runs bound h (meaning (NBits ((n1, (None, [Binary])) :: rest))) (h1, inr t).
Proof.
  intros N R. rewrite segment_meaning, N. apply (runs_bits forms world bound h _ (h1, inr t)). apply segments_head; [apply meaning_not_string|exact R].
Qed.
Lemma concat_right_fails bound h n1 sp1 h1 t1 b1 n2 h2 t : side bound h n1 sp1 h1 t1 b1 -> is_string n2 = false ->
  runs bound h1 (meaning n2) (h2, inr t) ->
  runs bound h (meaning (NBits [(n1, (None, sp1)); (n2, (None, [Binary]))])) (h2, inr t).
Proof.
  intros A N R. rewrite segment_meaning. rewrite (segment_meaning n2 [Binary] []), N. apply (runs_bits forms world bound h _ (h2, inr t)).
  assert (S2 := segments_head forms world bound h1 (meaning n2) [] h2 t (meaning_not_string n2) R).
  destruct A as [w|n h' t' b N' R'].
  - exact (segments_literal forms world bound h (unescaped w) _ _ S2).
  - rewrite N'. eapply segments_tail; [apply meaning_not_string|exact R'|exact S2].
Qed.

(** [erlang:element/2] of a value. *)
Lemma element_runs bound h n i h1 l b t : runs bound h (meaning n) (h1, inl (VTuple l, b)) -> nth_error l (N.to_nat i) = Some t ->
  runs bound h (meaning (element_node i n)) (h1, inl (t, b)).
Proof.
  intros R E. unfold element_node. cbn [meaning map].
  assert (L : list_runs forms world bound h [meaning (NInt (Z.of_N (i + 1))); meaning n] (h1, inl ([VInt (Z.of_N (i + 1)); VTuple l], (b ++ []) ))).
  { eapply list_cons; [apply runs_int| |]. 
    - assert (X := list_cons forms world bound h (meaning n) [] h1 (VTuple l) b h1 [] [] R (list_nil _ _ _ _)). cbn in X.
      apply X. apply disjoint_keys. intros ? ? [].
    - reflexivity. }
  rewrite app_nil_r in L. exact (call_remote forms world bound h _ _ _ h1 _ b _ L (call_element forms world h1 i l t E)).
Qed.
Lemma element_fails bound h n i h1 t : runs bound h (meaning n) (h1, inr t) -> runs bound h (meaning (element_node i n)) (h1, inr t).
Proof.
  intros R. unfold element_node. cbn [meaning map]. apply call_remote_fails. eapply list_tail; [apply runs_int|]. apply list_head, R.
Qed.

(** ** Guards *)

Section Guard.
Context (vars : scope) (al : list text) (genv : variables) (eenv : env) (s : state) (h : history)
  (VA : forall x l, lookup x vars = Some l -> ~ In x al -> exists y v t,
     place s l = Some y /\ lookup x genv = Some v /\ lookup y eenv = Some t /\ vrel v t).
Definition aliases_ok (a : aliases) (g : guard) : Prop :=
  (forall x, In x al -> get x a <> None \/ ~ In x (guard_mentions g)) /\
  (forall x at_ w, get x a = Some (at_, w) -> In x al /\ lookup x genv = Some (DString (unescaped w))).
Lemma aliases_part a g g' : (forall x, In x (guard_mentions g') -> In x (guard_mentions g)) -> aliases_ok a g -> aliases_ok a g'.
Proof. intros I (A & B). split; [|exact B]. intros x X. destruct (A x X) as [C|C]; [auto|right]. intro. apply C, I. assumption. Qed.

Lemma guard_state g : forall a s1 n s2, t_guard g a s1 = Some (n, s2) -> s2 = s1.
Proof.
  induction g; intros a s1 n s2 T; cbn [t_guard] in T; try (run T; reflexivity).
  - destruct (get name a) as [[l w]|]; run T; [reflexivity|]. unfold local_var_name in E. destruct (get_span _ _); [|discriminate].
    injection E as _ <-. reflexivity.
  - eapply IHg, T.
  - run T. eapply IHg, E.
  - run T. apply IHg1 in E. apply IHg2 in E0. congruence.
  - run T. eapply IHg, E.
  - run T. eapply IHg, E.
Qed.
Lemma guard_string g : forall a n s2, t_guard g a s = Some (n, s2) -> (forall x, In x (guard_mentions g) -> get x a = None) ->
  if guard_produces_literal_string g then exists w, n = string_node w /\ guard_value genv g = Some (DString (unescaped w)) else is_string n = false.
Proof.
  induction g; intros a n s2 T M; cbn [t_guard guard_produces_literal_string guard_value guard_mentions] in *;
    try (run T; reflexivity); try (run T; eexists; split; reflexivity).
  - rewrite (M name) in T by (left; reflexivity). run T. reflexivity.
  - eapply IHg; eassumption.
  - run T. destruct (guard_symbol operator); reflexivity.
Qed.

Lemma guard_runs g : legal_guard vars al g -> forall a n v s2, aliases_ok a g -> t_guard g a s = Some (n, s2) -> guard_value genv g = Some v ->
  exists t, runs eenv h (meaning n) (h, inl (t, [])) /\ vrel v t.
Proof.
  induction g; intros L a n v s' A T V; cbn [legal_guard t_guard guard_value] in *.
  - run T. injection V as <-. eexists. split; [apply runs_int|constructor].
  - run T. injection V as <-. eexists. split; [apply runs_binary|constructor].
  - run T. injection V as <-. eexists. split; [apply runs_atom|constructor; exact L].
  - destruct (get name a) as [[at_ w]|] eqn:E.
    + run T. destruct A as [_ A]. destruct (A _ _ _ E) as [_ X]. rewrite X in V. injection V as <-. eexists. split; [apply runs_binary|constructor].
    + assert (O : ~ In name al). { intro I. destruct A as [A _]. destruct (A name I) as [C|C]; [contradiction|]. apply C. left. reflexivity. }
      destruct (VA _ _ L O) as (y & w & t & P & Q & R & S). rewrite Q in V. injection V as ->. run T. unfold local_var_name in E0.
      change (get_span definition_location (variable_names s)) with (place s definition_location) in E0. rewrite P in E0. injection E0 as <- _.
      exists t. split; [apply runs_var, R|exact S].
  - eapply IHg; eassumption.
  - destruct L as [L _]. run T. assert (s = s0) as <- by (symmetry; eapply guard_state, E).
    destruct (guard_value genv g) as [w|] eqn:E'; [|discriminate]. destruct (as_bool w) as [b|] eqn:B; [|discriminate]. injection V as <-.
    destruct (IHg L a r w _ A E eq_refl) as (t & R & W). rewrite (rel_bool _ _ _ w t b W B) in R. exists (boolean (negb b)). split; [|apply rel_truth].
    cbn [meaning]. eapply runs_unary; [exact R|]. destruct b; reflexivity.
  - destruct L as (L1 & L2 & LO). apply bind_some in T. destruct T as (n1 & s1 & T1 & T). cbv beta in T. apply bind_some in T. destruct T as (n2 & s2 & T2 & T).
    apply ret_some in T. destruct T as [<- <-]. assert (s = s1) as <- by (symmetry; eapply guard_state, T1).
    assert (A1 : aliases_ok a g1) by (eapply aliases_part; [|exact A]; intros; apply in_app_iff; auto).
    assert (A2 : aliases_ok a g2) by (eapply aliases_part; [|exact A]; intros; apply in_app_iff; auto).
    assert (MAIN : forall sy, guard_symbol operator = Some sy -> operator <> And -> operator <> Or -> operator <> DivInt -> operator <> RemainderInt ->
      match guard_value genv g1, guard_value genv g2 with Some v, Some w => compute operator v w | _, _ => None end = Some v ->
      exists t, runs eenv h (meaning (NBinary sy n1 n2)) (h, inl (t, [])) /\ vrel v t).
    { intros sy SY X1 X2 X3 X4 C. destruct (guard_value genv g1) as [v1|] eqn:E1; [|discriminate]. destruct (guard_value genv g2) as [v2|] eqn:E2; [|discriminate].
      destruct (IHg1 L1 a n1 v1 _ A1 T1 eq_refl) as (t1 & R1 & W1). destruct (IHg2 L2 a n2 v2 _ A2 T2 eq_refl) as (t2 & R2 & W2).
      destruct (guard_operates _ _ _ operator v1 v2 v t1 t2 sy SY X1 X2 X3 X4 W1 W2 C) as (x & O & X). exists x. split; [|exact X].
      cbn [meaning]. eapply runs_op; [destruct operator; try discriminate; try contradiction; injection SY as <-; reflexivity| |exact O].
      exact (list_cons forms world eenv h _ _ h t1 [] h [t2] [] R1 (list_cons forms world eenv h _ _ h t2 [] h [] [] R2 (list_nil _ _ _ _) eq_refl) eq_refl). }
    destruct operator; cbn [guard_symbol]; try (eapply MAIN; [reflexivity|discriminate|discriminate|discriminate|discriminate|exact V]); try contradiction.
    + (* and *) destruct (guard_value genv g1) as [v1|] eqn:E1; [|discriminate]. destruct (IHg1 L1 a n1 v1 _ A1 T1 eq_refl) as (t1 & R1 & W1).
      destruct (as_bool v1) as [b|] eqn:B; [|discriminate]. rewrite (rel_bool _ _ _ v1 t1 b W1 B) in R1. destruct b.
      * destruct (IHg2 L2 a n2 v _ A2 T2 V) as (t2 & R2 & W2). exists t2. split; [|exact W2]. cbn [meaning]. eapply runs_andalso; [exact R1|].
        exists (h, inl (t2, [])). split; [exact R2|reflexivity].
      * injection V as <-. exists (boolean false). split; [|apply rel_truth]. cbn [meaning]. eapply runs_andalso; [exact R1|]. reflexivity.
    + (* or *) destruct (guard_value genv g1) as [v1|] eqn:E1; [|discriminate]. destruct (IHg1 L1 a n1 v1 _ A1 T1 eq_refl) as (t1 & R1 & W1).
      destruct (as_bool v1) as [b|] eqn:B; [|discriminate]. rewrite (rel_bool _ _ _ v1 t1 b W1 B) in R1. destruct b.
      * injection V as <-. exists (boolean true). split; [|apply rel_truth]. cbn [meaning]. eapply runs_orelse; [exact R1|]. reflexivity.
      * destruct (IHg2 L2 a n2 v _ A2 T2 V) as (t2 & R2 & W2). exists t2. split; [|exact W2]. cbn [meaning]. eapply runs_orelse; [exact R1|].
        exists (h, inl (t2, [])). split; [exact R2|reflexivity].
    + (* concatenation *)
      destruct (guard_value genv g1) as [v1|] eqn:E1; [|discriminate]. destruct (guard_value genv g2) as [v2|] eqn:E2; [|discriminate].
      cbn [compute] in V. destruct v1; try discriminate. destruct v2; try discriminate. injection V as <-.
      assert (NO : forall g, (forall x, In x al -> ~ In x (guard_mentions g)) -> forall x, In x (guard_mentions g) -> get x a = None).
      { intros g O x X. destruct (get x a) as [[at_ w]|] eqn:G; [|reflexivity]. destruct A as [_ A]. destruct (A _ _ _ G) as [I _]. exfalso. apply (O x I X). }
      assert (S1 : exists t1, side eenv h n1 (if guard_produces_literal_string g1 then [Utf8] else [Binary]) h t [] /\ t1 = t).
      { assert (K := guard_string g1 a n1 _ T1 (NO g1 (fun x X => proj1 (LO x X)))). exists t. split; [|reflexivity]. destruct (guard_produces_literal_string g1).
        - destruct K as (w & -> & K). rewrite E1 in K. injection K as ->. constructor.
        - constructor; [exact K|]. destruct (IHg1 L1 a n1 _ _ A1 T1 eq_refl) as (t1 & R1 & W1). inversion W1; subst. exact R1. }
      assert (S2 : side eenv h n2 (if guard_produces_literal_string g2 then [Utf8] else [Binary]) h t0 []).
      { assert (K := guard_string g2 a n2 _ T2 (NO g2 (fun x X => proj2 (LO x X)))). destruct (guard_produces_literal_string g2).
        - destruct K as (w & -> & K). rewrite E2 in K. injection K as ->. constructor.
        - constructor; [exact K|]. destruct (IHg2 L2 a n2 _ _ A2 T2 eq_refl) as (t2 & R2 & W2). inversion W2; subst. exact R2. }
      destruct S1 as (_ & S1 & _). eexists. split; [exact (concat_runs _ _ _ _ _ _ _ _ _ _ _ _ S1 S2 eq_refl)|constructor].
  - destruct L as (L & O). run T. assert (s = s0) as <- by (symmetry; eapply guard_state, E).
    destruct (guard_value genv g) as [w|] eqn:E'; [|discriminate]. destruct w; try discriminate.
    assert (A0 : aliases_ok [] g) by (split; [intros x X; right; apply O, X|discriminate]).
    destruct (IHg L [] r _ _ A0 E eq_refl) as (t & R & W). inversion W; subst. destruct (rel_nth _ _ _ _ V H0) as (u & U & RU).
    exists u. split; [eapply element_runs; eassumption|exact RU].
  - destruct L as (L & O). run T. assert (s = s0) as <- by (symmetry; eapply guard_state, E).
    destruct (guard_value genv g) as [w|] eqn:E'; [|discriminate]. destruct w; try discriminate.
    assert (A0 : aliases_ok [] g) by (split; [intros x X; right; apply O, X|discriminate]).
    destruct (IHg L [] r _ _ A0 E eq_refl) as (t & R & W). inversion W; subst; [destruct (N.to_nat index); discriminate|].
    destruct (rel_nth _ _ _ _ V H3) as (u & U & RU). exists u. split; [|exact RU]. eapply element_runs; [exact R|].
    replace (N.to_nat (index + 1)) with (S (N.to_nat index)) by lia. exact U.
Qed.
End Guard.
End Run.
End Env.
