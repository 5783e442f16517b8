(** The trees of [ErlangCodeTree] are ones that read back. *)
From Coq Require Import String NArith ZArith List Bool Lia Permutation ZifyBool ZifyN ZifyNat.
From Verif Require Import Text TextProofs Strings StringsSpec StringsProofs Erl ErlangSource ErlangSourceSpec ErlangSourceScan ErlangTypes ErlangTypesProofs
  ErlangCode ErlangRun ErlangCodeSpec ErlangCodeTree ErlangCodeCalls ErlangCodeNames ErlangCodeState ErlangCodeRel ErlangCodeSim ErlangCodeSimExpr.
Import ListNotations.
Local Open Scope nat_scope.
Local Open Scope list_scope.

(** ** Names *)

Definition plain (w : text) : Prop := forallb (fun c => negb ((c =? 34) || (c =? 92))%N) w = true.
Lemma plain_unescaped w : plain w -> unescaped w = w.
Proof.
  unfold plain, unescaped. induction w as [|c w IH]; [reflexivity|]. cbn [forallb unescape]. intro H. apply andb_true_iff in H. destruct H as [A B].
  destruct (c =? 92)%N eqn:E; [rewrite orb_true_r in A; discriminate|]. f_equal. apply IH, B.
Qed.
Lemma plain_literal w : plain w -> literal_text w.
Proof.
  intro H. unfold literal_text. rewrite plain_unescaped by exact H. induction w as [|c w IH]; [constructor|]. cbn [plain forallb] in H. apply andb_true_iff in H. destruct H as [A B].
  apply (contents_piece [c] c w w); [|intro E; injection E as ->; discriminate|apply IH, B]. constructor. intros ->. discriminate.
Qed.
Lemma name_characters_char x : forallb name_character x = true -> forallb name_char x = true.
Proof.
  rewrite ! forallb_forall. intros H c C. specialize (H c C). unfold name_character, name_char, is_alphanumeric, is_lower, is_upper, is_digit, underscore in *. lia.
Qed.
Lemma digits_char x : forallb is_digit x = true -> forallb name_char x = true.
Proof. rewrite ! forallb_forall. intros H c C. specialize (H c C). unfold name_char, is_alphanumeric, is_digit in *. lia. Qed.
Lemma valid_characters x : valid_name x = true -> forallb name_character x = true.
Proof.
  unfold valid_name. intro H. apply orb_true_iff in H. destruct x as [|c x]; [destruct H; discriminate|]. cbn [valid_plain_name forallb] in *. unfold name_character at 1.
  destruct H as [H|H]; apply andb_true_iff in H; destruct H as [A B].
  - rewrite A, B. reflexivity.
  - rewrite A, orb_true_r. cbn [andb]. destruct x as [|d x]; [discriminate|]. cbn [valid_plain_name] in B. apply andb_true_iff in B. destruct B as [B1 B2].
    cbn [forallb]. unfold name_character at 1. rewrite B1, B2. reflexivity.
Qed.
Lemma valid_atom x : valid_name x = true -> atom_name x = true.
Proof.
  intro H. apply valid_characters in H. unfold atom_name. rewrite forallb_forall in *. intros c C. specialize (H c C).
  unfold name_character, is_lower, is_digit, underscore in H. lia.
Qed.
Lemma valid_plain x : valid_name x = true -> plain x.
Proof.
  intro H. apply valid_characters in H. unfold plain. rewrite forallb_forall in *. intros c C. specialize (H c C).
  unfold name_character, is_lower, is_digit, underscore in H. lia.
Qed.
Lemma mk_variable x k : valid_name x = true -> ErlangSourceSpec.variable_name (mk x k) = true.
Proof.
  intro H. assert (C := valid_characters x H). assert (V : ErlangSourceSpec.variable_name (ErlangCode.variable_name x) = true).
  { destruct x as [|c x]; [discriminate|]. cbn [ErlangCode.variable_name ErlangSourceSpec.variable_name]. cbn [forallb] in C. apply andb_true_iff in C. destruct C as [C1 C2].
    rewrite (name_characters_char x C2), andb_true_r. unfold valid_name in H. cbn [valid_plain_name] in H. unfold to_uppercase.
    destruct (is_lower c) eqn:E; [unfold is_lower, is_upper in *; lia|]. cbn [andb orb] in H. unfold underscore in H. lia. }
  unfold mk. destruct (k =? 0)%N; [exact V|]. destruct (ErlangCode.variable_name x) as [|c y]; [discriminate|].
  cbn [ErlangSourceSpec.variable_name app] in *. apply andb_true_iff in V. destruct V as [V1 V2]. rewrite V1, forallb_app, V2. cbn [forallb andb app].
  rewrite (digits_char _ (decimal_forallb k)). reflexivity.
Qed.
Lemma gen_variable k : ErlangSourceSpec.variable_name (gen k) = true.
Proof.
  unfold gen. destruct (k =? 0)%N; [reflexivity|]. change (str "_value@") with (95%N :: str "value@"). cbn [ErlangSourceSpec.variable_name app].
  rewrite forallb_app, (digits_char _ (decimal_forallb k)). reflexivity.
Qed.
Lemma escape_atom f : atom_name f = true -> atom_name (escape_erlang_existing_name f) = true.
Proof. intro H. unfold escape_erlang_existing_name. destruct (text_eqb _ _); [reflexivity|exact H]. Qed.

(** ** Results *)

Definition good_state (s : state) : Prop := Forall (fun p => ErlangSourceSpec.variable_name (snd p) = true) (variable_names s).
Definition yields {A} (P : A -> Prop) (m : M A) : Prop := forall s a s', good_state s -> m s = Some (a, s') -> good_state s' /\ P a.
Lemma yields_ret {A} (P : A -> Prop) a : P a -> yields P (ret a).
Proof. intros H s a' s' G E. injection E as <- <-. auto. Qed.
Lemma yields_bind {A B} (P : A -> Prop) (Q : B -> Prop) m f : yields P m -> (forall a, P a -> yields Q (f a)) -> yields Q (bind m f).
Proof. intros H K s b s' G E. apply bind_some in E. destruct E as (a & s1 & E1 & E2). destruct (H _ _ _ G E1) as [G1 A1]. exact (K a A1 _ _ _ G1 E2). Qed.
Lemma yields_impl {A} (P Q : A -> Prop) m : (forall a, P a -> Q a) -> yields P m -> yields Q m.
Proof. intros I H s a s' G E. destruct (H _ _ _ G E). auto. Qed.
Lemma yields_and {A} (P Q : A -> Prop) m : yields P m -> (forall s a s', m s = Some (a, s') -> Q a) -> yields (fun a => P a /\ Q a) m.
Proof. intros H K s a s' G E. destruct (H _ _ _ G E). eauto. Qed.
Lemma yields_map {A B} (P : B -> Prop) (f : A -> M B) l : Forall (fun a => yields P (f a)) l -> yields (Forall P) (map_m f l).
Proof.
  induction 1 as [|a l H _ IH]; cbn [map_m]; [apply yields_ret; constructor|]. eapply yields_bind; [exact H|]. intros b PB.
  eapply yields_bind; [exact IH|]. intros bs PBS. apply yields_ret. constructor; assumption.
Qed.
Notation var x := (ErlangSourceSpec.variable_name x = true).
Lemma yields_new x l : valid_name x = true -> yields (fun x => var x) (new_erlang_variable x l).
Proof.
  intros H s a s' G E. rewrite new_variable in E. injection E as <- <-. assert (V : var (rho s x)) by (apply mk_variable, H). split; [|exact V].
  unfold good_state, alloc. cbn. constructor; [exact V|exact G].
Qed.
Lemma yields_generated : yields (fun x => var x) new_generated_variable.
Proof. intros s a s' G E. rewrite new_generated in E. injection E as <- <-. split; [exact G|apply gen_variable]. Qed.
Lemma yields_local l : yields (fun x => var x) (local_var_name l).
Proof.
  intros s a s' G E. unfold local_var_name in E. destruct (get_span l (variable_names s)) as [y|] eqn:P; [|discriminate]. injection E as <- <-. split; [exact G|].
  unfold good_state in G. induction (variable_names s) as [|[l' z] names IH]; [discriminate|]. inversion G; subst. cbn [get_span] in P.
  destruct (span_eqb l' l); [injection P as <-; assumption|apply IH; assumption].
Qed.
Lemma yields_generateds n : yields (fun l => forallb ErlangSourceSpec.variable_name l = true) (generated n).
Proof.
  induction n as [|n IH]; cbn [generated]; [apply yields_ret; reflexivity|]. eapply yields_bind; [apply yields_generated|]. intros x X.
  eapply yields_bind; [exact IH|]. intros l L. apply yields_ret. cbn [forallb]. rewrite X, L. reflexivity.
Qed.
Lemma yields_arguments args : (forall x, In x (map fst (arguments_bound args)) -> valid_name x = true) ->
  yields (fun l => forallb ErlangSourceSpec.variable_name l = true) (function_arguments_names args).
Proof.
  induction args as [|[x|x l] args IH]; intro V; cbn [function_arguments_names]; [apply yields_ret; reflexivity| |].
  - eapply yields_bind; [apply IH, V|]. intros r R. apply yields_ret. cbn [forallb]. rewrite R. reflexivity.
  - eapply yields_bind; [apply yields_new, V; left; reflexivity|]. intros y Y. eapply yields_bind; [apply IH; intros z Z; apply V; right; exact Z|].
    intros r R. apply yields_ret. cbn [forallb]. rewrite R, Y. reflexivity.
Qed.

(** ** Patterns *)

Definition lits (l : aliases) : Prop := Forall (fun a => literal_text (snd (snd a))) l.
Definition names_in (l : aliases) (xs : list text) : Prop := forall x, In x (map fst l) -> In x xs.
Definition pat_ok (later : aliases) (xs : list text) (r : node * aliases) : Prop :=
  wf Pattern (fst r) /\ lits (snd r) /\ forall x, In x (map fst (snd r)) -> In x (map fst later) \/ In x xs.
Definition valid_bound (p : pattern) : Prop := forall x, In x (map fst (bound_by p)) -> valid_name x = true.
Lemma turn_ok ps : Forall (fun p => forall later, legal_pattern p -> valid_bound p -> lits later -> yields (pat_ok later (aliased p)) (t_pattern p later)) ps ->
  forall later, each legal_pattern ps -> (forall x, In x (map fst (flat_map bound_by ps)) -> valid_name x = true) -> lits later ->
  yields (fun r => Forall (wf Pattern) (fst r) /\ lits (snd r) /\ forall x, In x (map fst (snd r)) -> In x (map fst later) \/ In x (flat_map aliased ps)) (in_turn t_pattern ps later).
Proof.
  induction 1 as [|p ps H _ IH]; intros later L V A; cbn [in_turn]; [apply yields_ret; cbn; auto|]. destruct L as [L1 L2].
  eapply yields_bind; [apply H; [exact L1| |exact A]|].
  { intros x X. apply V. cbn [flat_map]. rewrite map_app, in_app_iff. auto. }
  intros r (R1 & R2 & R3). eapply yields_bind; [apply IH; [exact L2| |exact R2]|].
  { intros x X. apply V. cbn [flat_map]. rewrite map_app, in_app_iff. auto. }
  intros q (Q1 & Q2 & Q3). apply yields_ret. cbn [fst snd]. split; [constructor; assumption|]. split; [exact Q2|]. intros x X. cbn [flat_map]. rewrite in_app_iff.
  destruct (Q3 x X) as [Y|Y]; [|tauto]. destruct (R3 x Y); tauto.
Qed.
Lemma wf_list k l t : Forall (wf k) l -> wf k t -> wf k (fold_right NCons t l).
Proof. intros H T. induction H; cbn [fold_right wf]; auto. Qed.
Lemma pattern_wf p : forall later, legal_pattern p -> valid_bound p -> lits later -> yields (pat_ok later (aliased p)) (t_pattern p later).
Proof.
  pattern p. apply pattern_rect'; clear p; intros; cbn [t_pattern].
  - apply yields_ret. repeat split; cbn; auto.
  - apply yields_ret. repeat split; cbn; auto.
  - apply yields_ret. repeat split; cbn; auto.
  - eapply yields_bind; [apply yields_new, H0; left; reflexivity|]. intros y Y. apply yields_ret. repeat split; cbn; auto.
  - eapply yields_bind; [apply H; [exact H0| |exact H2]|]. { intros y Y. apply H1. cbn [bound_by]. rewrite map_app, in_app_iff. auto. }
    intros r (R1 & R2 & R3). eapply yields_bind; [apply yields_new, H1; cbn [bound_by]; rewrite map_app, in_app_iff; right; left; reflexivity|].
    intros y Y. apply yields_ret. repeat split; cbn; auto.
  - eapply yields_bind; [apply (turn_ok ps H later H0 H1 H2)|]. intros r (R1 & R2 & R3). apply yields_ret. split; [apply each_Forall, R1|]. split; [exact R2|exact R3].
  - destruct H1 as [L1 L2]. eapply yields_bind; [apply (turn_ok ps H later L1); [|exact H3]|].
    { intros y Y. apply H2. cbn [bound_by]. rewrite map_app, in_app_iff. auto. }
    intros r (R1 & R2 & R3). destruct tail as [q|].
    + eapply yields_bind; [apply H0; [exact L2| |exact R2]|]. { intros y Y. apply H2. cbn [bound_by]. rewrite map_app, in_app_iff. auto. }
      intros t (T1 & T2 & T3). apply yields_ret. split; [apply wf_list; assumption|]. split; [exact T2|]. intros x X. cbn [aliased]. rewrite in_app_iff. destruct (T3 x X) as [Y|Y]; [|tauto]. destruct (R3 x Y); tauto.
    + apply yields_ret. split; [apply wf_list; [assumption|exact I]|]. split; [exact R2|]. intros x X. cbn [aliased]. rewrite in_app_iff. destruct (R3 x X); tauto.
  - destruct H0 as [U L]. assert (S := snake_atom c U). destruct ps as [|p ps]; [apply yields_ret; repeat split; cbn; auto|].
    eapply yields_bind; [apply (turn_ok (p :: ps) H later L H1 H2)|]. intros r (R1 & R2 & R3). apply yields_ret. split; [split; [exact S|apply each_Forall, R1]|]. split; [exact R2|exact R3].
  - eapply yields_bind with (P := fun n => wf Pattern n /\ is_match n = false).
    { destruct r as [x|]; [|apply yields_ret; repeat split; reflexivity]. eapply yields_bind; [apply yields_new, H0; cbn [bound_by]; rewrite map_app, in_app_iff; right; left; reflexivity|].
      intros y Y. apply yields_ret. split; [exact Y|reflexivity]. }
    intros y (Y1 & Y2). apply yields_ret. split; [|split].
    + cbn. auto.
    + cbn [snd]. destruct a as [[x l0]|]; [constructor; [exact H|exact H1]|exact H1].
    + cbn [snd]. intros z Z. destruct a as [[x l0]|]; [destruct Z as [<-|Z]; [right; left; reflexivity|auto]|auto].
Qed.
Lemma clause_patterns_wf ps : each legal_pattern ps -> (forall x, In x (map fst (flat_map bound_by ps)) -> valid_name x = true) ->
  yields (pat_ok [] (flat_map aliased ps)) (t_clause_patterns ps).
Proof.
  intros L V. assert (T : yields (pat_ok [] (flat_map aliased ps)) (do inner <- in_turn t_pattern ps []; ret (NTuple (fst inner), snd inner))).
  { eapply yields_bind; [apply turn_ok; [|exact L|exact V|constructor]|].
    - apply Forall_forall. intros p _. exact (pattern_wf p).
    - intros r (R1 & R2 & R3). apply yields_ret. split; [apply each_Forall, R1|]. auto. }
  destruct ps as [|p [|q ps]]; [exact T| |exact T]. cbn [t_clause_patterns flat_map]. rewrite app_nil_r. apply pattern_wf; [apply L| |constructor].
  intros x X. apply V. cbn [flat_map]. rewrite app_nil_r. exact X.
Qed.
Lemma insert_in e a : forall l, In a (insert_sorted e l) -> a = e \/ In a l.
Proof.
  induction l as [|[x v] l IH]; cbn [insert_sorted]; [intros [<-|[]]; auto|]. destruct (text_cmp (fst e) x); cbn; intuition (subst; auto).
Qed.
Lemma sorted_incl a : forall l, In a (sorted_by_name l) -> In a l.
Proof.
  induction l as [|e l IH]; cbn [sorted_by_name]; [auto|]. intro H. apply insert_in in H. destruct H as [->|H]; [left; reflexivity|]. right. apply filter_In in H. apply IH, H.
Qed.
Lemma assignments_wf l : lits l -> (forall x, In x (map fst l) -> valid_name x = true) -> yields (Forall (wf Expression)) (t_assignments l).
Proof.
  intros L V. unfold t_assignments. apply yields_map. apply Forall_forall. intros [x [at_ w]] X.
  assert (X' : In (x, (at_, w)) l) by (apply sorted_incl, X).
  eapply yields_bind; [apply yields_new, V, in_map_iff; exists (x, (at_, w)); auto|]. intros y Y. apply yields_ret. split; [exact Y|].
  unfold lits in L. rewrite Forall_forall in L. exact (L _ X').
Qed.

(** ** Guards *)

Lemma get_in x l a : get x l = Some a -> In (x, a) (l : aliases).
Proof.
  induction l as [|[y b] l IH]; [discriminate|]. cbn [get]. destruct (text_eqb y x) eqn:E; [apply text_eqb_eq in E; subst; intro H; injection H as ->; left; reflexivity|].
  intro H. right. apply IH, H.
Qed.
Lemma guard_wf vars xs g : forall l, legal_guard vars xs g -> lits l -> names_in l xs ->
  yields (fun n => wf Expression n /\ is_match n = false /\ (~ guard_text xs g -> is_string n = false)) (t_guard g l).
Proof.
  assert (SYM : forall op sy, guard_symbol op = Some sy -> binary sy = true) by (intros [] sy E; inversion E; reflexivity).
  induction g as [z|w|c|x d|g IH|g IH|op g IH g' IH'|g IH i|g IH i]; intros l L A N; cbn [t_guard]; cbn [legal_guard guard_text] in *.
  - apply yields_ret. repeat split.
  - apply yields_ret. repeat split; [exact L|]. tauto.
  - apply yields_ret. repeat split. apply snake_atom, L.
  - destruct (get x l) as [[at_ w]|] eqn:E.
    + apply get_in in E. apply yields_ret. repeat split.
      * unfold lits in A. rewrite Forall_forall in A. exact (A _ E).
      * intro NX. exfalso. apply NX, N, in_map_iff. exists (x, (at_, w)). auto.
    + eapply yields_bind; [apply yields_local|]. intros y Y. apply yields_ret. repeat split. exact Y.
  - apply IH; assumption.
  - destruct L as [L T]. eapply yields_bind; [apply IH; assumption|]. intros n (W & M & S). apply yields_ret. repeat split; auto.
  - destruct L as (L1 & L2 & _). eapply yields_bind; [apply IH; assumption|]. intros a (A1 & A2 & _). eapply yields_bind; [apply IH'; assumption|]. intros b (B1 & B2 & _).
    apply yields_ret. destruct (guard_symbol op) as [sy|] eqn:E; repeat split; auto. exact (SYM op sy E).
  - destruct L as [L _]. eapply yields_bind; [apply IH; [exact L|constructor|intros x []]|]. intros n (W & M & S). apply yields_ret. repeat split; auto.
  - destruct L as [L _]. eapply yields_bind; [apply IH; [exact L|constructor|intros x []]|]. intros n (W & M & S). apply yields_ret. repeat split; auto.
Qed.

(** ** Expressions *)

(** No match is made but in a body, and no operator is called. *)
Definition shaped (e : expr) (n : node) : Prop := is_match n = false /\ (may_be_called e = true -> callable n = true).
Lemma call_shape c f args s m s' : t_call c (t_expression c) f args s = Some (m, s') -> is_match m = false /\ callable m = true.
Proof.
  unfold t_call. intro T. destruct (how_to_call f); [destruct args|..]; run T; try (split; reflexivity). destruct (text_eqb _ _); split; reflexivity.
Qed.
Lemma maybe_shape module c e : forall used vars s m s', legal module used vars e -> t_maybe (t_expression c) e s = Some (m, s') -> shaped e m.
Proof.
  unfold shaped. pattern e. apply expr_rect'; clear e; intros; unfold t_maybe in *; cbn [t_expression t_expression_ needs_begin_end_wrapping may_be_called] in *;
    try (match goal with E : bind _ _ _ = Some _ |- _ => run E; match goal with F : ret _ _ = Some _ |- _ => run F | F : bind _ _ _ = Some _ |- _ => run F end; split; [reflexivity|try discriminate; reflexivity] end; fail).
  - run H0. run E. destruct v as [l|mo f a [[em ef]|] p|nm [k|]]; cbn [t_var] in E0; unfold t_record_builder in *; run E0; try (split; reflexivity).
    cbn. destruct (text_eqb mo (module_name c)); split; reflexivity.
  - assert (X : forall m0 s s', (bind (t_body c (t_expression c) l) (fun inner => ret [NBlock inner])) s = Some (m0, s') -> is_match (single m0) = false /\ callable (single m0) = true).
    { intros m0 s0 s1 E. run E. split; reflexivity. }
    run H1. destruct l as [|[e| |] [|]]; try (destruct (X _ _ _ E); split; auto; fail). run E. cbn [single]. inversion H; subst. destruct H0 as (_ & L & _). eapply H3; eassumption.
  - run H2. destruct op; cbn [t_operator plain_symbol needs_begin_end_wrapping] in *; unfold t_division in *;
      try (destruct (how_to_divide a b) as [| | |[]]); run E; split; first [reflexivity|discriminate].
  - run H2. run E. cbn [single]. destruct r0; [|split; reflexivity]. cbn [fold_right]. destruct tail; [|run E1; split; reflexivity]. destruct H1 as (_ & NE & _).
    apply map_m_length in E0. destruct l; [contradiction|discriminate].
  - run H3. destruct x; [split; reflexivity|]. run E. cbn [single]. apply call_shape in E0. split; [|intro]; apply E0.
  - run H2. run E. cbn [single]. apply call_shape in E0. split; [|intro]; apply E0.
  - run H2. unfold t_case in *. run E. run E0. split; reflexivity.
Qed.

Section Wf.
Context (module path : text) (lines : N -> N) (fn : text).
Context (LP : literal_text path) (LMod : literal_text module) (LF : literal_text fn).
Let c := Context module path fn lines.
Notation legal := (legal module).
Notation legal_body := (legal_body legal).
Notation legal_steps := (legal_steps legal).
Notation legal_clause := (legal_clause legal).
Notation legal_call := (legal_call legal).
Notation W := (wf Expression).

Definition X (e : expr) : Prop := forall used vars, legal used vars e -> yields (Forall W) (t_expression c e).
Lemma single_wf l : l <> [] -> Forall W l -> W (single l).
Proof.
  intros NE H. destruct l as [|n [|m l]]; [contradiction|inversion H; assumption|]. cbn [single wf]. split; [reflexivity|]. split; [discriminate|]. apply each_Forall, H.
Qed.
Definition fine (e : expr) (n : node) : Prop := W n /\ shaped e n /\ (text_literal e = false -> is_string n = false).
Lemma maybe_wf e used vars : X e -> legal used vars e -> yields (fine e) (t_maybe (t_expression c) e).
Proof.
  intros H L s m s' G T. assert (S := maybe_shape module c e used vars s m s' L T). assert (S' := maybe_not_string module c e used vars s m s' L T).
  unfold t_maybe in T. apply bind_some in T. destruct T as (inner & s1 & E & T). apply ret_some in T. destruct T as [<- <-].
  destruct (H used vars L _ _ _ G E) as [G1 F]. split; [exact G1|]. split; [|split; assumption].
  assert (NE := expression_not_nil _ _ _ _ _ E). destruct (needs_begin_end_wrapping e); [|apply single_wf; assumption].
  split; [reflexivity|]. split; [exact NE|]. apply each_Forall, F.
Qed.
Lemma maybes_wf l used vars : Forall X l -> each (legal used vars) l -> yields (Forall W) (map_m (t_maybe (t_expression c)) l).
Proof.
  intros H L. apply yields_map. apply each_Forall in L. rewrite Forall_forall in *. intros e E. eapply yields_impl; [|exact (maybe_wf e used vars (H e E) (L e E))]. intros n N. apply N.
Qed.
Lemma message_wf k m used vars : maybe X m -> match m with Some m => legal used vars m | None => True end -> yields W (t_message (t_expression c) k m).
Proof.
  intros H L. destruct m as [m|]; [eapply yields_impl; [|exact (maybe_wf m used vars H L)]; intros n N; apply N|]. apply yields_ret.
  apply plain_literal. destruct k; reflexivity.
Qed.
Lemma error_wf k location m more : W m -> Forall (fun p => W (fst p) /\ W (snd p)) more -> W (error_node c k location m more).
Proof.
  intros H M. unfold error_node. cbn [wf]. split; [reflexivity|]. split; [reflexivity|]. split; [reflexivity|]. split; [|exact I]. split; [reflexivity|].
  apply each_Forall. repeat (apply Forall_cons; [split; [reflexivity|first [exact H|exact LP|exact LMod|exact LF|exact I|destruct k; reflexivity]]|]).
  eapply Forall_impl; [|exact M]. intros [a b]. auto.
Qed.
Lemma call_wf f args used vars : X f -> Forall X args -> legal_call used vars f args -> yields W (t_call c (t_expression c) f args).
Proof.
  intros HF HA (L & C & LA). assert (A := maybes_wf args used vars HA LA). assert (B := maybe_wf f used vars HF L). unfold t_call.
  assert (D : yields W (do f <- t_maybe (t_expression c) f; do inner <- map_m (t_maybe (t_expression c)) args; ret (NCall f inner))).
  { eapply yields_bind; [exact B|]. intros n (N1 & (_ & N2) & _). eapply yields_bind; [exact A|]. intros l NL. apply yields_ret.
    split; [reflexivity|]. split; [exact N1|]. split; [apply N2, C|]. apply each_Forall, NL. }
  assert (K : forall m g, (if text_eqb m module then atom_name g = true else atom_name (erlang_module_name m) = true /\ atom_name (escape_erlang_existing_name g) = true) ->
    yields W (do inner <- map_m (t_maybe (t_expression c)) args;
      ret (if text_eqb m (module_name c) then NCall (NAtom (escape_erlang_existing_name g)) inner else NRemote (erlang_module_name m) (escape_erlang_existing_name g) inner))).
  { intros m g H. eapply yields_bind; [exact A|]. intros l NL. apply yields_ret. apply each_Forall in NL. cbn [module_name c].
    destruct (text_eqb m module); repeat split; try assumption; try apply H. apply escape_atom, H. }
  destruct f; try exact D. destruct constructor as [l|mo g ar [[em ef]|] pu|nm ar]; cbn [how_to_call]; try exact D.
  - apply K. destruct L as (NM & NI & (A1 & A2 & _)). destruct (text_eqb em module) eqn:E; [apply text_eqb_eq in E; contradiction|]. split; [exact A1|apply escape_atom, A2].
  - apply K. change (if text_eqb mo module then name = g /\ valid_name g = true else legal_foreign (InGleam mo g)) in L.
    destruct (text_eqb mo module); [apply valid_atom, L|]. destruct L as (A1 & A2 & _). split; assumption.
  - destruct args as [|a args]; [apply yields_ret; apply snake_atom, L|]. eapply yields_bind; [exact A|]. intros l NL. apply yields_ret.
    split; [apply snake_atom, L|]. apply each_Forall, NL.
Qed.
Lemma variable_wf x v used vars : legal used vars (Var x v) -> yields W (t_var c x v).
Proof.
  intro L. destruct v as [l|mo g ar [[em ef]|] pu|nm [k|]]; cbn [t_var].
  - eapply yields_bind; [apply yields_local|]. intros y Y. apply yields_ret. exact Y.
  - destruct L as (NM & NI & (A1 & A2 & _)). apply yields_ret. cbn [module_name c]. destruct (text_eqb em module); repeat split; try exact A1; apply escape_atom, A2.
  - change (if text_eqb mo module then x = g /\ valid_name g = true else legal_foreign (InGleam mo g)) in L. apply yields_ret. cbn [module_name c].
    destruct (text_eqb mo module); [destruct L as [-> L]; repeat split; apply escape_atom, valid_atom, L|]. destruct L as (A1 & A2 & _). repeat split; assumption.
  - unfold t_record_builder. eapply yields_bind; [apply yields_generateds|]. intros xs XS. apply yields_ret. assert (S := snake_atom nm L). split; [reflexivity|]. split; [exact XS|].
    split; [discriminate|]. destruct xs as [|y xs]; [split; [exact S|exact I]|]. split; [|exact I]. split; [exact S|]. apply each_Forall, Forall_forall.
    intros n N. apply in_map_iff in N. destruct N as (z & <- & Z). rewrite forallb_forall in XS. exact (XS z Z).
  - apply yields_ret. apply snake_atom, L.
Qed.
Lemma fresh_valid used b x : fresh used b -> In x (map fst b) -> valid_name x = true.
Proof. intros F H. exact (proj1 (fresh_legal _ _ _ F H)). Qed.
Lemma bind_wf x l e used used' vars : X e -> legal used' vars e -> fresh used [(x, l)] -> yields W (t_bind (t_expression c) x l e).
Proof.
  intros H L F. unfold t_bind. eapply yields_bind; [apply yields_new; eapply fresh_valid; [exact F|left; reflexivity]|]. intros y Y.
  eapply yields_bind; [exact (maybe_wf e used' vars H L)|]. intros n N. apply yields_ret. split; [exact Y|apply N].
Qed.
Lemma let_wf p e used used' vars : X e -> legal used' vars e -> legal_pattern p -> fresh used (bound_by p) -> yields W (t_let (t_expression c) e p).
Proof.
  intros H L P F. unfold t_let. eapply yields_bind; [apply pattern_wf; [exact P|intros x; apply fresh_valid with (used := used), F|constructor]|]. intros r (R & _).
  eapply yields_bind; [exact (maybe_wf e used' vars H L)|]. intros n N. apply yields_ret. split; [exact R|apply N].
Qed.
Lemma body_wf l : Forall (in_stmt X) l -> forall used vars, legal_body used vars l -> yields (Forall W) (t_body c (t_expression c) l).
Proof.
  induction 1 as [|st l H _ IH]; intros used vars L; [apply yields_ret; constructor|].
  assert (PL : forall p e, X e -> legal (map snd (bound_by p) ++ used) vars e -> legal_pattern p -> fresh used (bound_by p) -> legal_body (map snd (bound_by p) ++ used) (bound_by p ++ vars) l ->
    yields (Forall W) (bind (t_let (t_expression c) e p) (fun first => bind (t_body c (t_expression c) l) (fun rest => ret (first :: rest))))).
  { intros p e He L1 P F LB. eapply yields_bind; [exact (let_wf p e used _ vars He L1 P F)|]. intros n N. eapply yields_bind; [exact (IH _ _ LB)|]. intros ns NS.
    apply yields_ret. constructor; assumption. }
  destruct st as [e|p e|p e ee m loc]; cbn [in_stmt t_body ErlangCodeSpec.legal_body] in *.
  - destruct L as [L1 L2]. eapply yields_bind; [exact (H used vars L1)|]. intros a A. eapply yields_bind; [exact (IH used vars L2)|]. intros b B. apply yields_ret. apply Forall_app. auto.
  - destruct L as (L1 & P & _ & F & LB). apply PL; auto.
  - destruct H as [He Hm]. destruct L as (L1 & P & F & LM & LB). destruct (always_matches p); [apply PL; auto|].
    eapply yields_bind; [exact (maybe_wf e _ vars He L1)|]. intros n N.
    eapply yields_bind with (P := fun cl => wf Pattern (fst cl) /\ fst (snd cl) = None /\ snd (snd cl) <> [] /\ Forall W (snd (snd cl))).
    { assert (V : valid_bound p) by (intros x; apply fresh_valid with (used := used), F). destruct l as [|st l].
      - eapply yields_bind; [apply yields_generated|]. intros x XV. eapply yields_bind; [apply pattern_wf; [exact P|exact V|constructor]|]. intros r (R & _). apply yields_ret.
        repeat split; cbn; auto; discriminate.
      - set (l1 := st :: l) in *. assert (NL : l1 <> []) by discriminate.
        eapply yields_bind; [apply pattern_wf; [exact P|exact V|constructor]|]. intros r (R1 & R2 & R3).
        eapply yields_bind; [apply assignments_wf; [exact R2|]|].
        { intros x Y. apply V. destruct (R3 x Y) as [[]|Z]. apply names_split. right. apply aliased_prefixes, Z. }
        intros a A. eapply yields_bind with (P := fun b => Forall W b /\ b <> []); [apply yields_and; [exact (IH _ _ LB)|]|].
        { intros s b s' E. eapply body_not_empty; eassumption. }
        intros b [B NB]. apply yields_ret. cbn [fst snd]. repeat split; auto; [|apply Forall_app; auto]. destruct a; [exact NB|discriminate]. }
    intros cl (C1 & C2 & C3 & C4). eapply yields_bind; [apply yields_generated|]. intros x XV. eapply yields_bind; [exact (message_wf LetAssert m used vars Hm LM)|]. intros nm NM.
    apply yields_ret. constructor; [|constructor]. split; [reflexivity|]. split; [apply N|]. split; [discriminate|]. destruct cl as [cp [cg cb]]. cbn [fst snd] in *. subst cg.
    split; [split; [exact C1|]; split; [exact I|]; split; [exact C3|apply each_Forall, C4]|]. split; [|exact I]. unfold failure_clause.
    split; [exact XV|]. split; [exact I|]. split; [discriminate|]. split; [|exact I]. apply error_wf; [exact NM|]. repeat constructor; cbn; auto.
Qed.
Lemma steps_wf last : X last -> forall l, Forall (fun s => X (snd s)) l -> forall used vars, legal_steps last used vars l ->
  yields (Forall W) (do steps <- map_m (fun '(name, location, value) => t_bind (t_expression c) name location value) l; do last <- t_expression c last; ret (steps ++ last)).
Proof.
  intros HL l H.
  assert (A : forall used vars, legal_steps last used vars l -> yields (Forall W) (map_m (fun '(name, location, value) => t_bind (t_expression c) name location value) l)).
  { induction H as [|[[x at_] e] l E _ IH]; intros used vars L; [apply yields_ret; constructor|]. destruct L as (L1 & F & L2). cbn [map_m].
    eapply yields_bind; [exact (bind_wf x at_ e used _ vars E L1 F)|]. intros n N. eapply yields_bind; [exact (IH _ _ L2)|]. intros ns NS. apply yields_ret. constructor; assumption. }
  assert (B : forall used vars, legal_steps last used vars l -> yields (Forall W) (t_expression c last)).
  { clear A. induction H as [|[[x at_] e] l E _ IH]; intros used vars L; [exact (HL used vars L)|]. destruct L as (_ & _ & L2). exact (IH _ _ L2). }
  intros used vars L. eapply yields_bind; [exact (A _ _ L)|]. intros a PA. eapply yields_bind; [exact (B _ _ L)|]. intros b PB. apply yields_ret. apply Forall_app. auto.
Qed.
Definition clause_ok (cl : node * (option node * list node)) : Prop :=
  wf Pattern (fst cl) /\ match fst (snd cl) with Some g => W g | None => True end /\ snd (snd cl) <> [] /\ Forall W (snd (snd cl)).
Definition XB (e : expr) : Prop := X e /\ forall l, e = Block l -> Forall (in_stmt X) l.
Lemma branch_wf ps g e used used' vars vars' : XB e -> legal used' vars' e -> e <> Block [] -> each legal_pattern ps -> fresh used (flat_map bound_by ps) ->
  match g with Some g => legal_guard vars (flat_map aliased ps) g | None => True end -> yields clause_ok (t_branch c (t_expression c) ps g e).
Proof.
  intros [XE XL] L NE LPS F LG. assert (V : forall x, In x (map fst (flat_map bound_by ps)) -> valid_name x = true) by (intros x; apply fresh_valid with (used := used), F).
  unfold t_branch. eapply yields_bind; [apply clause_patterns_wf; assumption|]. intros r (R1 & R2 & R3).
  assert (R4 : names_in (snd r) (flat_map aliased ps)) by (intros x Y; destruct (R3 x Y) as [[]|Z]; exact Z).
  eapply yields_bind with (P := fun g => match g with Some g => W g | None => True end).
  { destruct g as [g|]; [|apply yields_ret; exact I]. eapply yields_bind; [exact (guard_wf vars _ g _ LG R2 R4)|]. intros n (N & _). apply yields_ret, N. }
  intros gn GN. eapply yields_bind; [apply assignments_wf; [exact R2|]|].
  { intros x Y. apply V. apply names_split_all. right. apply aliased_all, R4, Y. }
  intros a A. eapply yields_bind with (P := fun b => Forall W b /\ b <> []).
  { assert (D : yields (fun b => Forall W b /\ b <> []) (t_expression c e)).
    { apply yields_and; [exact (XE _ _ L)|]. intros s b s' E. eapply expression_not_nil, E. }
    destruct e; try exact D. destruct L as [NL L]. apply yields_and; [exact (body_wf _ (XL _ eq_refl) _ _ L)|]. intros s b s' E. eapply body_not_empty; eassumption. }
  intros b [B NB]. apply yields_ret. repeat split; cbn [fst snd]; auto; [|apply Forall_app; auto]. destruct a; [exact NB|discriminate].
Qed.
Lemma yields_set names : yields (fun _ => True) (set_names names).
Proof. intros s a s' G E. injection E as <- <-. auto. Qed.
Lemma yields_names : yields (fun _ => True) current_names.
Proof. intros s a s' G E. injection E as <- <-. auto. Qed.
Lemma clause_wf k cl used vars : XB (snd cl) -> legal_clause used vars k cl -> yields (fun l => l <> [] /\ Forall clause_ok l) (t_clause c (t_expression c) cl).
Proof.
  destruct cl as [[[first others] g] e]. cbn [snd]. intros XE (L1 & F & LO & LG & LE & NE). cbn [t_clause].
  eapply yields_bind; [apply yields_names|]. intros before _. destruct L1 as [[_ L1] L2].
  eapply yields_bind; [apply (branch_wf first g e used _ (flat_map bound_by first ++ vars) _ XE LE NE L1 F)|].
  { destruct g; [apply LG|exact I]. }
  intros a A. eapply yields_bind; [apply yields_map with (P := clause_ok)|].
  { apply Forall_forall. intros ps PS. eapply yields_bind; [apply yields_set|]. intros _ _. apply each_Forall in L2, LO. rewrite Forall_forall in L2, LO.
    apply (branch_wf ps g e (map snd (flat_map bound_by first) ++ used) _ (flat_map bound_by first ++ vars) _ XE LE NE); [apply L2, PS|apply LO, PS|].
    destruct g; [|exact I]. destruct LG as [_ LG]. apply each_Forall in LG. rewrite Forall_forall in LG. apply LG, PS. }
  intros r R. apply yields_ret. split; [discriminate|]. constructor; assumption.
Qed.
Lemma zero_wf op x q : binary op = true -> var x -> W q -> is_match q = false -> Forall clause_ok (zero_or op x q).
Proof. intros B V Q M. repeat constructor; cbn; auto; try discriminate. Qed.
Lemma case_wf n l : W n -> l <> [] -> Forall clause_ok l -> W (NCase n l).
Proof.
  intros N NE F. split; [reflexivity|]. split; [exact N|]. split; [exact NE|]. apply each_Forall. eapply Forall_impl; [|exact F].
  intros [p [g b]] (C1 & C2 & C3 & C4). cbn [fst snd] in *. repeat split; auto. apply each_Forall, C4.
Qed.
Lemma division_wf a b op used vars : binary op = true -> X a -> X b -> legal used vars a -> legal used vars b -> yields (Forall W) (t_division (t_expression c) a b op).
Proof.
  intros OP XA XB LA LB. assert (A := maybe_wf a used vars XA LA). assert (B := maybe_wf b used vars XB LB). unfold t_division. destruct (how_to_divide a b) as [| | |[]].
  - eapply yields_bind; [exact A|]. intros n (N & (M & _) & _). eapply yields_bind; [exact B|]. intros n' (N' & (M' & _) & _). apply yields_ret. repeat constructor; assumption.
  - apply yields_ret. repeat constructor.
  - eapply yields_bind; [exact A|]. intros n (N & _). apply yields_ret. repeat constructor; assumption.
  - eapply yields_bind; [exact B|]. intros n (N & _). eapply yields_bind; [apply yields_generated|]. intros x V. eapply yields_bind; [exact A|]. intros n' (N' & (M' & _) & _).
    apply yields_ret. constructor; [|constructor]. apply case_wf; [exact N|discriminate|]. apply zero_wf; assumption.
  - eapply yields_bind; [apply yields_generated|]. intros x V. eapply yields_bind; [exact A|]. intros n (N & _). eapply yields_bind; [exact B|]. intros n' (N' & _).
    eapply yields_bind; [apply yields_generated|]. intros y V'. apply yields_ret. constructor; [split; [exact V|exact N]|]. constructor; [|constructor].
    apply case_wf; [exact N'|discriminate|]. apply zero_wf; auto.
Qed.
Lemma operator_wf op a b used vars : X a -> X b -> legal used vars a -> legal used vars b -> yields (Forall W) (t_operator (t_expression c) op a b).
Proof.
  intros XA XB LA LB. assert (A := maybe_wf a used vars XA LA). assert (B := maybe_wf b used vars XB LB).
  assert (SYM : forall op sy, plain_symbol op = Some sy -> binary sy = true) by (intros [] sy E; inversion E; reflexivity).
  assert (P : forall sy, binary sy = true -> yields (Forall W) (do l <- t_maybe (t_expression c) a; do r <- t_maybe (t_expression c) b; ret [NBinary sy l r])).
  { intros sy S. eapply yields_bind; [exact A|]. intros n (N & (M & _) & _). eapply yields_bind; [exact B|]. intros n' (N' & (M' & _) & _). apply yields_ret. repeat constructor; assumption. }
  unfold t_operator. destruct op; cbn [plain_symbol]; try (apply P; reflexivity); try (apply (division_wf a b _ used vars); auto; fail).
  eapply yields_bind; [exact A|]. intros n (N & (M & _) & _). eapply yields_bind; [exact B|]. intros n' (N' & (M' & _) & _). apply yields_ret. repeat constructor; assumption.
Qed.
Lemma yields_one m : yields W m -> yields (Forall W) (do n <- m; ret [n]).
Proof. intro H. eapply yields_bind; [exact H|]. intros n N. apply yields_ret. constructor; [exact N|constructor]. Qed.
Lemma expression_wf_ e : XB e.
Proof.
  assert (ST : forall l, Forall (in_stmt XB) l -> Forall (in_stmt X) l).
  { intros l H. eapply Forall_impl; [|exact H]. intros [e'|p e'|p e' ee m loc]; cbn; [intros []; assumption|intros []; assumption|]. intros ((? & _) & M). split; [assumption|].
    destruct m; [apply M|exact I]. }
  assert (FX : forall l, Forall XB l -> Forall X l) by (intros l H; eapply Forall_impl; [|exact H]; intros ? []; assumption).
  assert (MW : forall e used vars, XB e -> legal used vars e -> yields W (t_maybe (t_expression c) e)).
  { intros e0 used vars [H _] L. eapply yields_impl; [|exact (maybe_wf e0 used vars H L)]. intros n N. apply N. }
  pattern e. apply expr_rect'; clear e; intros; (split; [|try discriminate]); try (intros used vars L; cbn [t_expression t_expression_]).
  - apply yields_ret. repeat constructor.
  - apply yields_ret. constructor; [exact L|constructor].
  - apply yields_one. exact (variable_wf x v used vars L).
  - destruct L as [NE L]. assert (B : yields (Forall W) (do inner <- t_body c (t_expression c) l; ret [NBlock inner])).
    { eapply yields_bind with (P := fun b => Forall W b /\ b <> []).
      { apply yields_and; [exact (body_wf l (ST l H) used vars L)|]. intros s b s' E. eapply body_not_empty; eassumption. }
      intros b [B NB]. apply yields_ret. constructor; [|constructor]. split; [reflexivity|]. split; [exact NB|apply each_Forall, B]. }
    destruct l as [|[e|p e|p e ee m loc] [|]]; try exact B. apply yields_one. inversion H; subst. destruct L as [L _]. exact (MW e used vars H2 L).
  - intros l' E. injection E as <-. apply ST, H.
  - destruct L as [L T]. eapply yields_bind; [exact (maybe_wf e used vars (proj1 H) L)|]. intros n (N & (M & _) & S). apply yields_ret. repeat constructor; auto.
  - destruct L as [L T]. eapply yields_bind; [exact (maybe_wf e used vars (proj1 H) L)|]. intros n (N & (M & _) & S). apply yields_ret. repeat constructor; auto.
  - destruct L as (L1 & L2 & _). exact (operator_wf op a b used vars (proj1 H) (proj1 H0) L1 L2).
  - destruct L as [L1 L2]. eapply yields_bind; [exact (maybes_wf l used vars (FX l H) L1)|]. intros ns NS.
    eapply yields_bind with (P := W); [destruct tail; [apply (MW _ used vars H0), L2|apply yields_ret; exact I]|]. intros t T. apply yields_ret. constructor; [|constructor]. apply wf_list; assumption.
  - eapply yields_bind; [exact (maybes_wf l used vars (FX l H) L)|]. intros ns NS. apply yields_ret. constructor; [apply each_Forall, NS|constructor].
  - eapply yields_bind; [exact (MW e used vars H L)|]. intros n N. apply yields_ret. repeat constructor; auto.
  - eapply yields_bind; [exact (MW e used vars H L)|]. intros n N. apply yields_ret. repeat constructor; auto.
  - destruct x as [x|].
    + destruct L as (L1 & F & L2). eapply yields_bind; [exact (bind_wf x l e used _ vars (proj1 H) L1 F)|]. intros n N.
      eapply yields_bind; [exact (call_wf f args _ _ (proj1 H0) (FX args H1) L2)|]. intros m M. apply yields_ret. repeat constructor; assumption.
    + apply yields_one. exact (call_wf f args _ _ (proj1 H0) (FX args H1) L).
  - destruct L as (F & NE & L). eapply yields_bind; [apply yields_names|]. intros before _.
    eapply yields_bind; [apply yields_arguments; intros x; apply fresh_valid with (used := used), F|]. intros xs XS.
    eapply yields_bind with (P := fun b => Forall W b /\ b <> []).
    { apply yields_and; [exact (body_wf body (ST body H) _ _ L)|]. intros s b s' E. eapply body_not_empty; eassumption. }
    intros b [B NB]. eapply yields_bind; [apply yields_set|]. intros _ _. apply yields_ret. constructor; [|constructor]. split; [reflexivity|]. split; [exact XS|].
    split; [exact NB|apply each_Forall, B].
  - apply yields_one. exact (call_wf f args _ _ (proj1 H) (FX args H0) L).
  - apply (steps_wf last (proj1 H0) l) with (used := used) (vars := vars); [|exact L]. eapply Forall_impl; [|exact H]. intros ? []; assumption.
  - eapply yields_bind; [apply (message_wf k m used vars); [destruct m; [apply H|exact I]|exact L]|]. intros n N. apply yields_ret. constructor; [|constructor].
    apply error_wf; [exact N|constructor].
  - destruct L as (L1 & NE & L2). apply yields_one. unfold t_case.
    eapply yields_bind with (P := W).
    { assert (T : yields W (do inner <- map_m (t_maybe (t_expression c)) l; ret (NTuple inner))).
      { eapply yields_bind; [exact (maybes_wf l used vars (FX l H) L1)|]. intros ns NS. apply yields_ret. apply each_Forall, NS. }
      destruct l as [|e [|e' l]]; [exact T| |exact T]. inversion H; subst. apply (MW e used vars H3), L1. }
    intros n N. eapply yields_bind with (P := fun cls => Forall (fun l => l <> [] /\ Forall clause_ok l) cls /\ length cls = length clauses).
    { apply yields_and; [|intros s cls s'; apply map_m_length]. apply yields_map.
      apply each_Forall in L2. rewrite Forall_forall in L2, H0 |- *. intros cl CL. exact (clause_wf _ cl used vars (H0 cl CL) (L2 cl CL)). }
    intros cls [CLS LEN]. apply yields_ret. apply case_wf; [exact N| |].
    + destruct cls as [|cl cls]; [destruct clauses; [contradiction|discriminate]|]. inversion CLS; subst. destruct cl; [tauto|discriminate].
    + apply Forall_concat. eapply Forall_impl; [|exact CLS]. intros ? []; assumption.
Qed.
Lemma statements_wf l used vars : legal_body used vars l -> yields (Forall W) (t_body c (t_expression c) l).
Proof.
  apply body_wf. apply Forall_forall. intros [e|p e|p e ee m loc] _; cbn; [apply expression_wf_|apply expression_wf_|]. split; [apply expression_wf_|].
  destruct m; [apply expression_wf_|exact I].
Qed.
End Wf.

(** ** Functions *)

(** The tree of a function. *)
Theorem function_wf module path lines f : legal_function module f -> literal_text path -> plain module ->
  exists ns s1, t_body (Context module path (f_name f) lines) (t_expression (Context module path (f_name f) lines)) (f_body f)
    (alloc (arguments_bound (f_arguments f)) (State [] [] 0)) = Some (ns, s1) /\
  t_function module path lines f = Some (Function_ (exported_name (f_name f)) (parameter_names (State [] [] 0) (f_arguments f)) ns) /\
  top_wf (Function_ (exported_name (f_name f)) (parameter_names (State [] [] 0) (f_arguments f)) ns).
Proof.
  intros (VN & F & NE & L) PP PM. set (c := Context module path (f_name f) lines). set (s0 := State [] [] 0).
  assert (R0 : resolves (arguments_bound (f_arguments f) ++ []) (alloc (arguments_bound (f_arguments f)) s0)).
  { apply (resolves_alloc []); [exact F|intros x []|intros x l []]. }
  rewrite app_nil_r in R0.
  destruct (body_goes c module (f_body f) (all_stmts _ _ _ _ _) (map snd (arguments_bound (f_arguments f))) (arguments_bound (f_arguments f)) (incl_refl _) L) as [d D].
  destruct (D _ R0) as (ns & s1 & E & _). exists ns, s1. split; [exact E|].
  assert (A := arguments_ok (f_arguments f) s0 (proj1 F)). split.
  - unfold t_function. fold c s0. erewrite bind_eq by exact A. erewrite bind_eq by exact E. reflexivity.
  - assert (G0 : good_state s0) by constructor.
    destruct (yields_arguments (f_arguments f) (fun x => fresh_valid [] _ x F) _ _ _ G0 A) as [G1 V].
    destruct (statements_wf module path lines (f_name f) PP (plain_literal _ PM) (plain_literal _ (valid_plain _ VN)) _ _ _ L _ _ _ G1 E) as [_ W].
    split; [|split; [exact V|split; [|apply each_Forall, W]]].
    + unfold exported_name. destruct (text_eqb _ _); [reflexivity|apply valid_atom, VN].
    + eapply body_not_empty; eassumption.
Qed.
