(** The code that is generated does what the code of the program does: expressions. *)
From Coq Require Import String NArith ZArith List Bool Lia Permutation ZifyBool ZifyN ZifyNat.
From Verif Require Import Text TextProofs Strings StringsSpec StringsProofs Erl ErlangSource ErlangSourceSpec ErlangTypes
  ErlangCode ErlangRun ErlangRunProofs ErlangCodeSpec ErlangCodeTree ErlangCodeCalls ErlangCodeNames ErlangCodeState ErlangCodeRel ErlangCodeEnv
  ErlangCodeSim.
Import ListNotations.
Local Open Scope nat_scope.
Local Open Scope list_scope.

(** ** Nodes *)

Lemma rels_length {A B} (R : A -> B -> Prop) la lb : Forall2 R la lb -> length la = length lb.
Proof. induction 1; cbn; congruence. Qed.
Lemma meaning_direct m : direct_call (meaning m) = true \/ exists a, meaning m = EAtom a.
Proof.
  destruct m; try (left; reflexivity).
  - left. cbn [meaning]. unfold int_meaning. destruct (z <? 0)%Z; reflexivity.
  - left. cbn [meaning]. unfold float_meaning. destruct (negative f); [reflexivity|]. destruct (_ && _); reflexivity.
  - right. eexists. reflexivity.
  - left. cbn [meaning]. destruct (meaning m1); reflexivity.
Qed.
Lemma expression_not_nil c e : forall s ns s', t_expression c e s = Some (ns, s') -> ns <> [].
Proof.
  pattern e. apply expr_rect'; clear e; intros; cbn [t_expression t_expression_] in *;
    try (match goal with E : bind _ _ _ = Some _ |- _ => run E; discriminate end; fail);
    try (match goal with E : ret _ _ = Some _ |- _ => run E; discriminate end; fail).
  - assert (X : forall s, (bind (t_body c (t_expression c) l) (fun inner => ret [NBlock inner])) s = Some (ns, s') -> ns <> []).
    { intros s0 E. run E. discriminate. }
    destruct l as [|[e| |] [|]]; eauto. run H0. discriminate.
  - destruct op; cbn [t_operator plain_symbol] in *; unfold t_division in *; try (destruct (how_to_divide a b) as [| | |[]]); run H1; discriminate.
  - destruct x; run H2; discriminate.
  - run H1. specialize (H0 _ _ _ E0). destruct r; [exact H0|discriminate].
Qed.
Lemma body_not_empty c l s ns s' : l <> [] -> t_body c (t_expression c) l s = Some (ns, s') -> ns <> [].
Proof.
  intros N T. destruct l as [|[e|p e|p e ee m loc] l]; [contradiction| | |]; cbn [t_body] in T.
  - run T. apply expression_not_nil in E. destruct r; [contradiction|discriminate].
  - run T. discriminate.
  - destruct (always_matches p); run T; discriminate.
Qed.
Lemma call_not_string c f args s m s' : t_call c (t_expression c) f args s = Some (m, s') -> is_string m = false.
Proof.
  unfold t_call. intro T. destruct (how_to_call f); [destruct args|..]; run T; try reflexivity. destruct (text_eqb _ _); reflexivity.
Qed.
(** A list with a tail has elements. *)
Lemma maybe_not_string module c e : forall used vars s m s', legal module used vars e -> t_maybe (t_expression c) e s = Some (m, s') -> text_literal e = false -> is_string m = false.
Proof.
  pattern e. apply expr_rect'; clear e; intros; unfold t_maybe in *; cbn [t_expression t_expression_ needs_begin_end_wrapping text_literal] in *; try discriminate;
    try (match goal with E : bind _ _ _ = Some _ |- _ => run E; match goal with F : ret _ _ = Some _ |- _ => run F | F : bind _ _ _ = Some _ |- _ => run F end; reflexivity end; fail).
  - run H0. run E. destruct v as [l|mo f a [[em ef]|] p|nm [k|]]; cbn [t_var] in E0; unfold t_record_builder in *; run E0; try reflexivity.
    cbn. destruct (text_eqb mo (module_name c)); reflexivity.
  - assert (X : forall m0 s s', (bind (t_body c (t_expression c) l) (fun inner => ret [NBlock inner])) s = Some (m0, s') -> is_string (single m0) = false).
    { intros m0 s0 s1 E. run E. reflexivity. }
    run H1. destruct l as [|[e| |] [|]]; eauto. run E. cbn [single]. inversion H; subst. destruct H0 as (_ & L & _). eapply H4; eassumption.
  - run H2. destruct op; cbn [t_operator plain_symbol needs_begin_end_wrapping] in *; unfold t_division in *;
      try (destruct (how_to_divide a b) as [| | |[]]); run E; reflexivity.
  - run H2. run E. cbn [single]. destruct r0; [|reflexivity]. cbn [fold_right]. destruct tail; [|run E1; reflexivity]. destruct H1 as (_ & NE & _).
    apply map_m_length in E0. destruct l; [contradiction|discriminate].
  - run H3. destruct x; [reflexivity|]. run E. cbn [single]. eapply call_not_string; eassumption.
  - run H2. run E. cbn [single]. eapply call_not_string; eassumption.
  - run H2. run E. unfold t_case in E0. run E0. reflexivity.
Qed.

Section Sim.
Context (module path : text) (lines : N -> N) (forms : list form) (eworld : history -> text -> text -> list term -> option term)
  (functions : list function) (gworld : past -> foreign -> list value -> option value).
Notation ctx fn := (Context module path fn lines).
Notation vrel := (vrel module path lines).
Notation env_ok := (env_ok module path lines).
Notation legal := (legal module).
Notation legal_body := (legal_body legal).
Notation legal_steps := (legal_steps legal).
Notation legal_call := (legal_call legal).
Notation tex fn := (t_expression (ctx fn)).
Notation value_of := (value_of module lines functions gworld).
Notation values_of := (values_of module lines functions gworld).
Notation value_of_steps := (value_of_steps module lines functions gworld).
Notation value_of_body := (value_of_body module lines functions gworld).
Notation value_of_branches := (value_of_branches module lines functions gworld).
Notation applied := (applied module lines functions gworld).
Notation runs := (runs forms eworld).
Notation list_runs := (list_runs forms eworld).
Notation body_runs := (body_runs forms eworld).
Notation args_run := (args_run forms eworld).
Notation clauses_run := (clauses_run forms eworld).
Notation call_runs := (call_runs forms eworld).
Notation sound := (sound module path lines).
Notation sounds := (sounds module path lines).
Notation E_at := (E_at module path lines forms eworld functions gworld).
Notation M_at := (M_at module path lines forms eworld functions gworld).
Notation T_at := (T_at module path lines forms eworld functions gworld).
Notation L_at := (L_at module path lines forms eworld functions gworld).
Notation S_at := (S_at module path lines forms eworld functions gworld).
Notation B_at := (B_at module path lines forms eworld functions gworld).
Notation R_at := (R_at module path lines forms eworld functions gworld).
Notation A_at := (A_at module path lines forms eworld functions gworld).
Notation reports_ := (reports vrel (unescaped path) module).

Lemma sound_value s s' (run : history * ((term * env) + term) -> Prop) h eh v t b : represents_past h eh -> vrel v t -> news s s' b ->
  run (eh, inl (t, b)) -> sound s s' run (h, inl v).
Proof. intros P V N R. exists eh. split; [exact P|]. exists t, b. auto. Qed.
Lemma sound_fail s s' (run : history * ((term * env) + term) -> Prop) h eh f t : represents_past h eh -> reports_ f t ->
  run (eh, inr t) -> sound s s' run (h, inr f).
Proof. intros P V R. exists eh. split; [exact P|]. exists t. auto. Qed.
Lemma sound_one s s' bound eh m r : sound s s' (runs bound eh m) r -> sound s s' (body_runs bound eh [m]) r.
Proof. apply sound_impl. intros q Q. apply body_one, Q. Qed.

(** ** What has no effect *)

Definition still {A} (m : past -> result A) : Prop := forall h r, m h = Some r ->
  exists v, r = (h, inl v) /\ forall h2, m h2 = Some (h2, inl v).
Lemma still_next {A B} (m : past -> result A) (k : past -> A -> result B) : still m -> (forall v, still (fun h => k h v)) -> still (fun h => next (m h) k).
Proof.
  intros SM SK h r V. apply next_some in V. destruct V as (h1 & q & V1 & V). destruct (SM _ _ V1) as (v & Q & A1). injection Q as -> ->.
  destruct (SK v _ _ V) as (w & -> & B1). exists w. split; [reflexivity|]. intro h2. rewrite A1. cbn. apply B1.
Qed.
Lemma still_option {A} (o : option A) : still (fun h => of_option h o).
Proof. intros h r V. apply of_option_some in V. destruct V as (v & -> & ->). exists v. split; reflexivity. Qed.
Lemma still_gives {A} (a : A) : still (fun h => gives h a).
Proof. exact (still_option (Some a)). Qed.
Lemma still_none {A} : still (fun _ => @None (past * (A + failure))).
Proof. intros h r V. discriminate. Qed.
Ltac stills :=
  repeat first [apply still_option | apply still_gives | apply still_none
    | match goal with |- still (fun h => next _ _) => apply still_next; [|intro; cbv beta] end
    | match goal with |- still (fun h => match ?x with _ => _ end) => destruct x eqn:? end].
Lemma builds_record : forall e, is_record_literal e = builds e.
Proof. fix go 1. intro e. destruct e; try reflexivity; try (destruct constructor; reflexivity); exact (go e). Qed.
Lemma may_act_impure f : (is_record_literal f || called_function_is_pure f) = negb (may_act f).
Proof.
  rewrite builds_record. destruct f; try reflexivity; cbn;
    try (destruct constructor; cbn; rewrite ?negb_involutive; reflexivity);
    rewrite ?orb_false_r, ?negb_involutive; reflexivity.
Qed.
Lemma pure_shows_none e : is_pure_value_constructor e = negb (shows_effect e)
with statement_shows_none s : is_pure_statement s = negb (statement_shows_effect s).
Proof.
  - destruct e as [| | |l| | | | | | | | | |f l|l e| |l cs]; cbn [is_pure_value_constructor shows_effect]; try reflexivity; try apply pure_shows_none.
    + revert l. fix go 1. intros [|s l]; [reflexivity|]. cbn [forallb existsb]. rewrite negb_orb, <- statement_shows_none, <- go. reflexivity.
    + rewrite negb_orb, may_act_impure. f_equal. revert l. fix go 1. intros [|e l]; [reflexivity|].
      cbn [forallb existsb]. rewrite negb_orb, <- pure_shows_none, <- go. reflexivity.
    + rewrite negb_orb, <- (pure_shows_none e). f_equal. clear e. revert l. fix go 1. intros [|[[x at_] e] l]; [reflexivity|].
      cbn [forallb existsb]. rewrite negb_orb, <- pure_shows_none, <- go. reflexivity.
    + rewrite negb_orb. f_equal.
      * clear cs. revert l. fix go 1. intros [|e l]; [reflexivity|]. cbn [forallb existsb]. rewrite negb_orb, <- pure_shows_none, <- go. reflexivity.
      * clear l. revert cs. fix go 1. intros [|[[[p ps] g] e] l]; [reflexivity|]. cbn [forallb existsb]. rewrite negb_orb, <- pure_shows_none, <- go. reflexivity.
  - destruct s; [apply pure_shows_none|apply pure_shows_none|reflexivity].
Qed.
Definition settled_at n := forall fn,
  (forall genv e, settled e = true -> still (fun h => value_of n fn genv h e)) /\
  (forall genv l, forallb settled l = true -> still (fun h => values_of n fn genv h l)) /\
  (forall genv (l : list (text * span * expr)) last, forallb (fun '(_, e) => settled e) l = true -> settled last = true -> still (fun h => value_of_steps n fn genv h l last)) /\
  (forall genv l, forallb settled_statement l = true -> still (fun h => value_of_body n fn genv h l)) /\
  (forall genv vs (l : list (list pattern * option guard * expr)), forallb (fun '(_, _, e) => settled e) l = true -> still (fun h => value_of_branches n fn genv h vs l)).
Lemma branches_settled clauses : forallb (fun '(_, _, _, e) => settled e) clauses = true -> forallb (fun '(_, _, e) => settled e) (branches clauses) = true.
Proof.
  rewrite ! forallb_forall. intros H [[ps g] e] I. apply in_flat_map in I. destruct I as ([[[f o] g'] e'] & I & J).
  apply in_map_iff in J. destruct J as (x & [= -> -> ->] & _). exact (H _ I).
Qed.
Lemma constructed n fn genv f args : constructor_ f = true ->
  still (fun h => values_of n fn genv h args) -> still (fun h => next (value_of n fn genv h f) (fun h f => next (values_of n fn genv h args) (fun h vs => applied n h f vs))).
Proof.
  intros C S. destruct f as [| |x c| | | | | | | | | | | | | |]; try discriminate. destruct c as [| |c a]; try discriminate.
  destruct n as [|n]; [intros h r V; discriminate|]. intros h r V. cbn [ErlangCodeSpec.value_of] in V |- *. unfold of_option in *. cbn [variable_value] in *.
  destruct a as [k|]; cbn [next gives] in *.
  - revert h r V. apply still_next; [exact S|]. intros v h r V. cbn [ErlangCodeSpec.applied] in *. destruct (Nat.eqb _ _); [|discriminate]. injection V as <-. eexists. split; reflexivity.
  - revert h r V. apply still_next; [exact S|]. intros v h r V. discriminate.
Qed.
Lemma settled_all : forall n, settled_at n.
Proof.
  induction n as [|n IH]; intro fn; [repeat split; intros; apply still_none|].
  destruct (IH fn) as (IE' & IL' & IP' & IB' & IC'). repeat split.
  - intros genv e S. destruct e; cbn [settled] in S; try discriminate S; cbn [ErlangCodeSpec.value_of].
    + apply still_gives.
    + apply still_gives.
    + apply still_option.
    + apply IB', S.
    + stills. apply IE', S.
    + stills. apply IE', S.
    + apply andb_true_iff in S. destruct S as [S1 S2]. destruct operator; stills; apply IE'; assumption.
    + apply andb_true_iff in S. destruct S as [S1 S2]. apply still_next; [apply IL', S1|]. intro vs. cbv beta. destruct tail; stills; auto.
    + stills. apply IL', S.
    + stills. apply IE', S.
    + stills. apply IE', S.
    + destruct updated_record_assigned_name as [x|].
      * apply andb_true_iff in S. destruct S as [S S3]. apply andb_true_iff in S. destruct S as [S1 S2]. apply still_next; [apply IE', S1|]. intro v. cbv beta.
        apply IE'. cbn [settled]. rewrite S2, S3. reflexivity.
      * apply IE'. exact S.
    + apply still_gives.
    + apply andb_true_iff in S. destruct S as [S1 S2]. apply constructed; [exact S1|apply IL', S2].
    + apply andb_true_iff in S. destruct S as [S1 S2]. apply IP'; assumption.
    + apply andb_true_iff in S. destruct S as [S1 S2]. apply still_next; [apply IL', S1|]. intro vs. cbv beta. apply IC', branches_settled, S2.
  - intros genv l S. destruct l as [|e l]; cbn [ErlangCodeSpec.values_of]; [apply still_gives|]. apply andb_true_iff in S. destruct S as [S1 S2].
    stills; auto.
  - intros genv l last S1 S2. destruct l as [|[[x at_] e] l]; cbn [ErlangCodeSpec.value_of_steps]; [apply IE', S2|]. apply andb_true_iff in S1. destruct S1 as [S0 S1].
    apply still_next; [apply IE', S0|]. intro v. cbv beta. apply IP'; assumption.
  - intros genv l S. destruct l as [|s l]; cbn [ErlangCodeSpec.value_of_body]; [apply still_none|]. apply andb_true_iff in S. destruct S as [S1 S2].
    apply still_next.
    + destruct s; try discriminate; stills; apply IE', S1.
    + intro v. cbv beta. destruct l as [|s' l]; [apply still_gives|]. apply IB', S2.
  - intros genv vs l S. destruct l as [|[[ps g] e] l]; cbn [ErlangCodeSpec.value_of_branches]; [apply still_none|]. apply andb_true_iff in S. destruct S as [S1 S2].
    stills; auto.
Qed.
Lemma settled_value fn genv n e h r : settled e = true -> value_of n fn genv h e = Some r ->
  exists v, r = (h, inl v) /\ forall h2, value_of n fn genv h2 e = Some (h2, inl v).
Proof. intro S. destruct (settled_all n fn) as (H & _). exact (H genv e S h r). Qed.

(** ** Lists of arguments *)

Section Step.
Context (n : nat) (IE : E_at n) (IM : M_at n) (IL : L_at n).

Lemma list_step : L_at (S n).
Proof.
  intros fn l used vars genv eenv s ns s' h eh r U K L P T V. destruct l as [|e l]; cbn [map_m] in T; run T.
  - injection V as <-. exists eh. split; [exact P|]. exists [], []. split; [constructor|]. split; [apply news_nil|]. apply args_nil.
  - cbn [ErlangCodeSpec.values_of] in V. destruct L as [L1 L2]. apply next_some in V. destruct V as (h1 & q & V1 & V).
    assert (A1 := maybe_start _ _ _ _ _ _ _ _ _ _ _ _ K L1 E). assert (A2 := maybes_start _ _ _ _ _ _ _ _ _ _ _ _ (env_later _ _ _ _ _ _ _ _ _ K A1) L2 E0).
    assert (X := IM _ _ _ _ _ _ _ _ _ _ _ _ U K L1 P E V1). destruct X as (eh1 & P1 & X). cbn [fst snd] in P1, X. destruct q as [v|f].
    + destruct X as (t & b & VR & N & R). apply next_some in V. destruct V as (h2 & q & V2 & V).
      assert (Y := IL _ _ _ _ _ _ _ _ _ _ _ _ U (env_later _ _ _ _ _ _ _ _ _ K A1) L2 P1 E0 V2). destruct Y as (eh2 & P2 & Y). cbn [fst snd] in P2, Y.
      destruct q as [vs|f].
      * destruct Y as (ts & bs & VS & NS & RS). injection V as <-. exists eh2. split; [exact P2|]. exists (t :: ts), (bs ++ b). split; [constructor; assumption|].
        split; [eapply news_two; eassumption|]. cbn [map]. eapply args_cons; [exact R|exact RS|]. eapply news_disjoint; eassumption.
      * subst r. destruct Y as (u & RU & RS). exists eh2. split; [exact P2|]. exists u. split; [exact RU|]. cbn [map]. eapply args_tail; eassumption.
    + subst r. destruct X as (u & RU & RS). exists eh1. split; [exact P1|]. exists u. split; [exact RU|]. cbn [map]. apply args_head, RS.
Qed.

Section Expression.
Context (fn : text) (used : list span) (vars : scope) (genv : variables) (eenv : env) (s : state) (h : past) (eh : history)
  (U : unescaped fn = fn) (K : env_ok used vars s genv eenv) (P : represents_past h eh).

Lemma pair_disjoint (b : env) : disjoint b [] = true.
Proof. apply disjoint_keys. intros ? ? []. Qed.

(** Two expressions, the second after the first. *)
Lemma two_step a b na nb s1 s' r (k : past -> value -> value -> result value) (run : history * ((term * env) + term) -> Prop) :
  legal used vars a -> legal used vars b -> t_maybe (tex fn) a s = Some (na, s1) -> t_maybe (tex fn) b s1 = Some (nb, s') ->
  next (value_of n fn genv h a) (fun h v => next (value_of n fn genv h b) (fun h w => k h v w)) = Some r ->
  (forall eh1 t, list_runs eenv eh [meaning na; meaning nb] (eh1, inr t) -> run (eh1, inr t)) ->
  (forall h1 h2 v w eh2 t u c, represents_past h2 eh2 -> vrel v t -> vrel w u -> news s s' c -> value_of n fn genv h1 b = Some (h2, inl w) -> k h2 v w = Some r ->
     list_runs eenv eh [meaning na; meaning nb] (eh2, inl ([t; u], c)) -> sound s s' run r) ->
  sound s s' run r.
Proof.
  intros LA LB TA TB V FA OK. apply next_some in V. destruct V as (h1 & q & V1 & V).
  assert (A1 := maybe_start _ _ _ _ _ _ _ _ _ _ _ _ K LA TA). assert (K1 := env_later _ _ _ _ _ _ _ _ _ K A1).
  assert (A2 := maybe_start _ _ _ _ _ _ _ _ _ _ _ _ K1 LB TB).
  destruct (IM _ _ _ _ _ _ _ _ _ _ _ _ U K LA P TA V1) as (eh1 & P1 & X). cbn [fst snd] in P1, X. destruct q as [v|f].
  - destruct X as (t & ba & VR & N & R). apply next_some in V. destruct V as (h2 & q & V2 & V).
    destruct (IM _ _ _ _ _ _ _ _ _ _ _ _ U K1 LB P1 TB V2) as (eh2 & P2 & Y). cbn [fst snd] in P2, Y. destruct q as [w|f].
    + destruct Y as (u & bb & WR & N2 & R2). eapply OK; [exact P2|exact VR|exact WR|eapply news_two; eassumption|exact V2|exact V|].
      eapply list_cons; [exact R| |eapply news_disjoint; eassumption].
      exact (list_cons forms eworld eenv _ _ _ _ _ bb _ [] [] R2 (list_nil _ _ _ _) (pair_disjoint _)).
    + subst r. destruct Y as (u & RU & RS). eapply sound_fail; [exact P2|exact RU|]. apply FA. eapply list_tail; [exact R|]. apply list_head, RS.
  - subst r. destruct X as (u & RU & RS). eapply sound_fail; [exact P1|exact RU|]. apply FA. apply list_head, RS.
Qed.
(** One expression. *)
Lemma one_step e m s1 s' r (k : past -> value -> result value) (run : history * ((term * env) + term) -> Prop) :
  legal used vars e -> t_maybe (tex fn) e s = Some (m, s1) -> next (value_of n fn genv h e) k = Some r ->
  (forall eh1 t, runs eenv eh (meaning m) (eh1, inr t) -> run (eh1, inr t)) ->
  (forall h1 v eh1 t b, at_start used s s1 -> represents_past h1 eh1 -> vrel v t -> news s s1 b -> k h1 v = Some r ->
     runs eenv eh (meaning m) (eh1, inl (t, b)) -> sound s s' run r) ->
  sound s s' run r.
Proof.
  intros L T V FA OK. apply next_some in V. destruct V as (h1 & q & V1 & V). assert (A1 := maybe_start _ _ _ _ _ _ _ _ _ _ _ _ K L T).
  destruct (IM _ _ _ _ _ _ _ _ _ _ _ _ U K L P T V1) as (eh1 & P1 & X). cbn [fst snd] in P1, X. destruct q as [v|f].
  - destruct X as (t & b & VR & N & R). eapply OK; eassumption.
  - subst r. destruct X as (u & RU & RS). eapply sound_fail; [exact P1|exact RU|]. apply FA, RS.
Qed.
(** Many expressions. *)
Lemma many_step l ms s1 s' r (k : past -> list value -> result value) (run : history * ((term * env) + term) -> Prop) :
  each (legal used vars) l -> map_m (t_maybe (tex fn)) l s = Some (ms, s1) -> next (values_of n fn genv h l) k = Some r ->
  (forall eh1 t, args_run eenv eh (map meaning ms) (eh1, inr t) -> run (eh1, inr t)) ->
  (forall h1 vs eh1 ts b, at_start used s s1 -> represents_past h1 eh1 -> Forall2 vrel vs ts -> news s s1 b -> k h1 vs = Some r ->
     args_run eenv eh (map meaning ms) (eh1, inl (ts, b)) -> sound s s' run r) ->
  sound s s' run r.
Proof.
  intros L T V FA OK. apply next_some in V. destruct V as (h1 & q & V1 & V). assert (A1 := maybes_start _ _ _ _ _ _ _ _ _ _ _ _ K L T).
  destruct (IL _ _ _ _ _ _ _ _ _ _ _ _ U K L P T V1) as (eh1 & P1 & X). cbn [fst snd] in P1, X. destruct q as [v|f].
  - destruct X as (t & b & VR & N & R). eapply OK; eassumption.
  - subst r. destruct X as (u & RU & RS). eapply sound_fail; [exact P1|exact RU|]. apply FA, RS.
Qed.

Notation goal s' ns r := (sound s s' (body_runs eenv eh (map meaning ns)) r).

Lemma int_ok z ns s' r : tex fn (Int z) s = Some (ns, s') -> value_of (S n) fn genv h (Int z) = Some r -> goal s' ns r.
Proof.
  intros T V. cbn [t_expression t_expression_] in T. run T. injection V as <-. eapply sound_now; [exact P|apply v_int|]. apply body_one, runs_int.
Qed.
Lemma string_ok w ns s' r : tex fn (String_ w) s = Some (ns, s') -> value_of (S n) fn genv h (String_ w) = Some r -> goal s' ns r.
Proof.
  intros T V. cbn [t_expression t_expression_] in T. run T. injection V as <-. eapply sound_now; [exact P|apply v_string|]. apply body_one, runs_binary.
Qed.
Lemma variable_ok x c ns s' r : legal used vars (Var x c) -> tex fn (Var x c) s = Some (ns, s') -> value_of (S n) fn genv h (Var x c) = Some r -> goal s' ns r.
Proof.
  intros L T V. cbn [t_expression t_expression_] in T. run T. cbn [ErlangCodeSpec.value_of] in V. apply of_option_some in V. destruct V as (v & V & ->).
  change (legal_variable module vars x c) in L. destruct c as [l|m f a [[em ef]|] p|c [k|]]; cbn [variable_value legal_variable t_var] in *.
  - run E. unfold local_var_name in E0. destruct K as (_ & _ & C & _). destruct (C x l L) as (y & w & t & Q1 & Q2 & Q3 & Q4).
    change (get_span l (variable_names s)) with (place s l) in E0. rewrite Q1 in E0. injection E0 as <- <-. rewrite Q2 in V. injection V as ->.
    eapply sound_now; [exact P|exact Q4|]. apply body_one, runs_var, Q3.
  - run E. injection V as <-. destruct L as (L1 & L2 & L3). cbn [module_name]. destruct (text_eqb em module) eqn:EM; [apply text_eqb_eq in EM; contradiction|].
    assert (EF : escape_erlang_existing_name ef = ef).
    { unfold escape_erlang_existing_name. destruct (text_eqb ef (str "module_info")) eqn:EI; [apply text_eqb_eq in EI; contradiction|reflexivity]. }
    rewrite EF. eapply sound_now; [exact P|apply v_foreign, L3|]. apply body_one. exact (runs_ref forms eworld _ _ (Some _) _ _).
  - run E. injection V as <-. cbn [module_name]. destruct (text_eqb m module) eqn:EM.
    + destruct L as (-> & L). eapply sound_now; [exact P|apply v_function|]. apply body_one. exact (runs_ref forms eworld _ _ None _ _).
    + eapply sound_now; [exact P|apply v_foreign, L|]. apply body_one. exact (runs_ref forms eworld _ _ (Some _) _ _).
  - unfold t_record_builder in E. run E. rewrite generated_is in E0. injection E0 as <- <-. injection V as <-.
    set (xs := map _ (seq 0 k)). eapply sound_now; [exact P| |].
    + apply (v_constructor _ _ _ c k xs eenv); [exact L|unfold xs; rewrite map_length, seq_length; reflexivity| |].
      * unfold xs. apply FinFun.Injective_map_NoDup; [|apply seq_NoDup]. intros i j E. apply gen_injective in E. lia.
      * unfold xs. intro I. apply in_map_iff in I. destruct I as (i & I & _). eapply gen_not_discard, I.
    + cbn [map meaning]. assert (E : [meaning match xs with [] => NAtom (to_snake_case c) | _ :: _ => NTuple (NAtom (to_snake_case c) :: map NVar xs) end] =
        [match xs with [] => EAtom (to_snake_case c) | _ :: _ => ETuple (EAtom (to_snake_case c) :: map EVar xs) end]).
      { destruct xs; [reflexivity|]. cbn [meaning map]. rewrite map_map. reflexivity. }
      cbn [map] in E. injection E as E. rewrite E. apply body_one. apply runs_fun.
  - run E. injection V as <-. eapply sound_now; [exact P|apply v_constant, L|]. apply body_one, runs_atom.
Qed.
Lemma not_ok e ns s' r : legal used vars (NegateBool e) -> tex fn (NegateBool e) s = Some (ns, s') -> value_of (S n) fn genv h (NegateBool e) = Some r -> goal s' ns r.
Proof.
  intros [L _] T V. cbn [t_expression t_expression_] in T. run T. cbn [ErlangCodeSpec.value_of] in V. apply sound_one. eapply one_step; [exact L|exact E|exact V| |].
  - intros. apply runs_unary_fails. assumption.
  - intros h1 v eh1 t b A1 P1 VR N V1 R. cbv beta in V1. apply of_option_some in V1. destruct V1 as (w & V1 & ->). destruct (as_bool v) as [x|] eqn:B; [|discriminate].
    injection V1 as <-. rewrite (rel_bool _ _ _ _ _ _ VR B) in R. eapply sound_value; [exact P1|apply rel_truth|exact N|]. eapply runs_unary; [exact R|]. destruct x; reflexivity.
Qed.
Lemma minus_ok e ns s' r : legal used vars (NegateInt e) -> tex fn (NegateInt e) s = Some (ns, s') -> value_of (S n) fn genv h (NegateInt e) = Some r -> goal s' ns r.
Proof.
  intros [L _] T V. cbn [t_expression t_expression_] in T. run T. cbn [ErlangCodeSpec.value_of] in V. apply sound_one. eapply one_step; [exact L|exact E|exact V| |].
  - intros. apply runs_unary_fails. assumption.
  - intros h1 v eh1 t b A1 P1 VR N V1 R. cbv beta in V1. destruct v; try discriminate. injection V1 as <-. inversion VR; subst.
    eapply sound_value; [exact P1|apply v_int|exact N|]. eapply runs_unary; [exact R|]. reflexivity.
Qed.
Lemma index_ok e i ns s' r : legal used vars (TupleIndex e i) -> tex fn (TupleIndex e i) s = Some (ns, s') -> value_of (S n) fn genv h (TupleIndex e i) = Some r -> goal s' ns r.
Proof.
  intros L T V. change (legal used vars e) in L. cbn [t_expression t_expression_] in T. run T. cbn [ErlangCodeSpec.value_of] in V. apply sound_one. eapply one_step; [exact L|exact E|exact V| |].
  - intros. apply element_fails. assumption.
  - intros h1 v eh1 t b A1 P1 VR N V1 R. cbv beta in V1. destruct v; try discriminate. apply of_option_some in V1. destruct V1 as (w & V1 & ->). inversion VR; subst.
    destruct (rel_nth _ _ _ _ _ _ _ V1 H0) as (u & EU & RU). eapply sound_value; [exact P1|exact RU|exact N|]. eapply element_runs; eassumption.
Qed.
Lemma field_ok e i ns s' r : legal used vars (RecordAccess e i) -> tex fn (RecordAccess e i) s = Some (ns, s') -> value_of (S n) fn genv h (RecordAccess e i) = Some r -> goal s' ns r.
Proof.
  intros L T V. change (legal used vars e) in L. cbn [t_expression t_expression_] in T. run T. cbn [ErlangCodeSpec.value_of] in V. apply sound_one. eapply one_step; [exact L|exact E|exact V| |].
  - intros. apply element_fails. assumption.
  - intros h1 v eh1 t b A1 P1 VR N V1 R. cbv beta in V1. destruct v; try discriminate. apply of_option_some in V1. destruct V1 as (w & V1 & ->).
    inversion VR; subst; [destruct (N.to_nat i); discriminate|].
    destruct (rel_nth _ _ _ _ _ _ _ V1 H3) as (u & EU & RU). eapply sound_value; [exact P1|exact RU|exact N|]. eapply element_runs; [exact R|].
    replace (N.to_nat (i + 1)) with (S (N.to_nat i)) by lia. exact EU.
Qed.
Lemma tuple_ok l ns s' r : legal used vars (Tuple l) -> tex fn (Tuple l) s = Some (ns, s') -> value_of (S n) fn genv h (Tuple l) = Some r -> goal s' ns r.
Proof.
  intros L T V. change (each (legal used vars) l) in L. cbn [t_expression t_expression_] in T. run T. cbn [ErlangCodeSpec.value_of] in V. apply sound_one. eapply many_step; [exact L|exact E|exact V| |].
  - intros eh1 t R. apply args_list in R. exact (runs_tuple _ _ _ _ _ _ R).
  - intros h1 vs eh1 ts b A1 P1 VR N V1 R. injection V1 as <-. eapply sound_value; [exact P1|apply v_tuple, VR|exact N|]. apply args_list in R. exact (runs_tuple _ _ _ _ _ _ R).
Qed.
Lemma fold_rel vs ts : Forall2 vrel vs ts -> forall v t, vrel v t -> vrel (fold_right DCons v vs) (fold_right VCons t ts).
Proof. induction 1; intros; cbn; [assumption|]. constructor; auto. Qed.

(** What runs after something that bound variables. *)
Lemma sound_after s1 s' b (run run2 : history * ((term * env) + term) -> Prop) r : at_start used s s1 -> at_start used s1 s' -> news s s1 b -> sound s1 s' run2 r ->
  (forall q, run2 q -> run (lift (fun q : term * env => (fst q, snd q ++ b)) q)) -> sound s s' run r.
Proof.
  intros A A' N (eh2 & P2 & X) I. exists eh2. split; [exact P2|]. destruct (snd r).
  - destruct X as (t & b2 & VR & N2 & R). exists t, (b2 ++ b). split; [exact VR|]. split; [eapply news_two; eassumption|]. exact (I _ R).
  - destruct X as (t & VR & R). exists t. split; [exact VR|]. exact (I _ R).
Qed.
Lemma list_ok l tail ns s' r : legal used vars (List_ l tail) -> tex fn (List_ l tail) s = Some (ns, s') -> value_of (S n) fn genv h (List_ l tail) = Some r -> goal s' ns r.
Proof.
  intros (L1 & L2) T V. cbn [t_expression t_expression_] in T. run T. cbn [ErlangCodeSpec.value_of] in V. apply sound_one. rewrite fold_cons_meaning.
  eapply many_step; [exact L1|exact E|exact V| |].
  - intros eh1 t R. apply args_conses_fail, R.
  - intros h1 vs eh1 ts b A1 P1 VR N V1 R. cbv beta in V1. apply next_some in V1. destruct V1 as (h2 & q & V1 & V2). destruct tail as [e|].
    + destruct L2 as [_ L2]. assert (K1 := env_later _ _ _ _ _ _ _ _ _ K A1). assert (A2 := maybe_start _ _ _ _ _ _ _ _ _ _ _ _ K1 L2 E0).
      destruct (IM _ _ _ _ _ _ _ _ _ _ _ _ U K1 L2 P1 E0 V1) as (eh2 & P2 & X). cbn [fst snd] in P2, X. destruct q as [v|f].
      * injection V2 as <-. destruct X as (t & b2 & VT & N2 & R2). eapply sound_value; [exact P2|apply fold_rel; eassumption|eapply news_two; eassumption|].
        eapply args_conses; [exact R|exact R2|eapply news_disjoint; eassumption].
      * subst r. destruct X as (u & RU & RS). eapply sound_fail; [exact P2|exact RU|]. eapply args_conses_tail; eassumption.
    + run E0. injection V1 as <- <-. injection V2 as <-. eapply sound_value; [exact P1|apply fold_rel; [eassumption|apply v_nil]|exact N|].
      exact (args_conses forms eworld eenv (meaning NNil) eh1 VNil [] _ _ _ _ _ R (runs_nil _ _ _ _) (pair_disjoint _)).
Qed.

(** ** Operators *)

Lemma strict_ok op sy a b ns s' r : plain_symbol op = Some sy -> op <> And -> op <> Or -> legal used vars a -> legal used vars b ->
  (do l <- t_maybe (tex fn) a; do r <- t_maybe (tex fn) b; ret [NBinary sy l r]) s = Some (ns, s') ->
  next (value_of n fn genv h a) (fun h v => next (value_of n fn genv h b) (fun h w => of_option h (compute op v w))) = Some r -> goal s' ns r.
Proof.
  intros SY NA NO LA LB T V. run T. assert (ST : strict sy = true) by (destruct op; try discriminate; try contradiction; injection SY as <-; reflexivity).
  apply sound_one. eapply two_step; [exact LA|exact LB|exact E|exact E0|exact V| |].
  - intros. apply runs_op_fails; assumption.
  - intros h1 h2 v w eh2 t u c P2 VR WR N V1 V2 R. cbv beta in V2. apply of_option_some in V2. destruct V2 as (x & V2 & ->).
    destruct (plain_operates _ _ _ op v w x t u sy SY NA NO VR WR V2) as (y & O & X). eapply sound_value; [exact P2|exact X|exact N|].
    eapply runs_op; eassumption.
Qed.
Lemma and_ok a b ns s' r : legal used vars (BinOp And a b) -> tex fn (BinOp And a b) s = Some (ns, s') -> value_of (S n) fn genv h (BinOp And a b) = Some r -> goal s' ns r.
Proof.
  intros (LA & LB & _) T V. cbn [t_expression t_expression_ t_operator plain_symbol] in T. run T. cbn [ErlangCodeSpec.value_of] in V. apply sound_one.
  eapply one_step; [exact LA|exact E|exact V| |].
  - intros. apply runs_andalso_fails. assumption.
  - intros h1 v eh1 t c A1 P1 VR N V1 R. cbv beta in V1. destruct (as_bool v) as [x|] eqn:B; [|discriminate]. rewrite (rel_bool _ _ _ _ _ _ VR B) in R.
    assert (K1 := env_extended _ _ _ _ _ _ _ _ _ _ K A1 N). assert (A2 := maybe_start _ _ _ _ _ _ _ _ _ _ _ _ K1 LB E0). destruct x.
    + eapply sound_after; [exact A1|exact A2|exact N|eapply IM; eassumption|]. intros q Q. cbn [meaning]. eapply runs_andalso; [exact R|]. exists q. split; [exact Q|reflexivity].
    + injection V1 as <-. eapply sound_value; [exact P1|apply rel_truth|eapply news_later; eassumption|]. cbn [meaning]. eapply runs_andalso; [exact R|]. reflexivity.
Qed.
Lemma or_ok a b ns s' r : legal used vars (BinOp Or a b) -> tex fn (BinOp Or a b) s = Some (ns, s') -> value_of (S n) fn genv h (BinOp Or a b) = Some r -> goal s' ns r.
Proof.
  intros (LA & LB & _) T V. cbn [t_expression t_expression_ t_operator plain_symbol] in T. run T. cbn [ErlangCodeSpec.value_of] in V. apply sound_one.
  eapply one_step; [exact LA|exact E|exact V| |].
  - intros. apply runs_orelse_fails. assumption.
  - intros h1 v eh1 t c A1 P1 VR N V1 R. cbv beta in V1. destruct (as_bool v) as [x|] eqn:B; [|discriminate]. rewrite (rel_bool _ _ _ _ _ _ VR B) in R.
    assert (K1 := env_extended _ _ _ _ _ _ _ _ _ _ K A1 N). assert (A2 := maybe_start _ _ _ _ _ _ _ _ _ _ _ _ K1 LB E0). destruct x.
    + injection V1 as <-. eapply sound_value; [exact P1|apply rel_truth|eapply news_later; eassumption|]. cbn [meaning]. eapply runs_orelse; [exact R|]. reflexivity.
    + eapply sound_after; [exact A1|exact A2|exact N|eapply IM; eassumption|]. intros q Q. cbn [meaning]. eapply runs_orelse; [exact R|]. exists q. split; [exact Q|reflexivity].
Qed.

(** Concatenation *)
Lemma concat_ok a b ns s' r : legal used vars (BinOp Concatenate a b) -> tex fn (BinOp Concatenate a b) s = Some (ns, s') ->
  value_of (S n) fn genv h (BinOp Concatenate a b) = Some r -> goal s' ns r.
Proof.
  intros (LA & LB & LL) T V. inversion LL; subst. inversion H2; subst. clear LL H2 H4.
  cbn [t_expression t_expression_ t_operator plain_symbol] in T. run T. cbn [ErlangCodeSpec.value_of] in V. apply sound_one.
  assert (A1 := maybe_start _ _ _ _ _ _ _ _ _ _ _ _ K LA E). assert (K1 := env_later _ _ _ _ _ _ _ _ _ K A1).
  assert (A2 := maybe_start _ _ _ _ _ _ _ _ _ _ _ _ K1 LB E0).
  assert (SIDE : forall e (Y : text_literal e = true -> exists w, e = String_ w) s m s1 h eh h1 q, env_ok used vars s genv eenv -> represents_past h eh -> legal used vars e -> t_maybe (tex fn) e s = Some (m, s1) ->
    value_of n fn genv h e = Some (h1, q) -> exists eh1, represents_past h1 eh1 /\
    match q with
    | inl (DString t) => exists b, news s s1 b /\ side forms eworld eenv eh m (literal_specifier e) eh1 t b
    | inl _ => True
    | inr f => exists t, reports_ f t /\ is_string m = false /\ literal_specifier e = [Binary] /\ runs eenv eh (meaning m) (eh1, inr t)
    end).
  { clear - IM U. intros e Y s m s1 h eh h1 q K P L T V. destruct (IM _ _ _ _ _ _ _ _ _ _ _ _ U K L P T V) as (eh1 & P1 & X). cbn [fst snd] in P1, X.
    exists eh1. split; [exact P1|]. destruct (text_literal e) eqn:TL.
    - destruct (Y eq_refl) as (w & ->). destruct n as [|n']; [discriminate|]. injection V as <- <-. unfold t_maybe in T. run T.
      cbn [t_expression t_expression_] in E. run E. cbn. destruct X as (t & b & VR & N & R). inversion VR; subst. exists [].
      split; [apply news_nil|]. assert (Q := ends_same _ _ _ R (runs_binary _ _ _ _ _)). injection Q as ->. constructor.
    - assert (NS := maybe_not_string _ _ _ _ _ _ _ _ L T TL). assert (LS : literal_specifier e = [Binary]) by (destruct e; try discriminate; reflexivity).
      destruct q as [v|f].
      + destruct v; auto. destruct X as (u & b & VR & N & R). inversion VR; subst. exists b. split; [exact N|]. rewrite LS. constructor; assumption.
      + destruct X as (u & RU & R). exists u. auto. }
  apply next_some in V. destruct V as (h1 & q & V1 & V).
  destruct (SIDE a H1 _ _ _ _ _ _ _ K P LA E V1) as (eh1 & P1 & X). destruct q as [v|f].
  - destruct v; try discriminate. destruct X as (ba & N & S1). apply next_some in V. destruct V as (h2 & q & V2 & V).
    destruct (SIDE b H3 _ _ _ _ _ _ _ K1 P1 LB E0 V2) as (eh2 & P2 & X2). destruct q as [w|f].
    + destruct w; try discriminate. injection V as <-. destruct X2 as (bb & N2 & S2). eapply sound_value; [exact P2|apply v_string|eapply news_two; eassumption|].
      eapply concat_runs; [exact S1|exact S2|eapply news_disjoint; eassumption].
    + subst r. destruct X2 as (u & RU & NS & LS & R). rewrite LS. eapply sound_fail; [exact P2|exact RU|]. eapply concat_right_fails; eassumption.
  - subst r. destruct X as (u & RU & NS & LS & R). rewrite LS. eapply sound_fail; [exact P1|exact RU|]. eapply concat_left_fails; eassumption.
Qed.

(** ** Division *)

Definition quotient (op : binop) (x y : Z) : Z :=
  if (y =? 0)%Z then 0%Z else match op with DivInt => Z.quot x y | _ => Z.rem x y end.
Definition division_sign (op : binop) : sym := match op with DivInt => KDiv | _ => KRem end.
Lemma divides op v w u : op = DivInt \/ op = RemainderInt -> compute op v w = Some u -> exists x y, v = DInt x /\ w = DInt y /\ u = DInt (quotient op x y).
Proof.
  intros [->| ->] C; cbn [compute] in C; destruct v; try discriminate; destruct w; try discriminate; injection C as <-; unfold quotient; eauto.
Qed.
Lemma operates op x y : op = DivInt \/ op = RemainderInt -> y <> 0%Z -> operate (division_sign op) (VInt x) (VInt y) = Some (inl (VInt (quotient op x y))).
Proof.
  intros O Y. unfold quotient. destruct (y =? 0)%Z eqn:E; [lia|]. destruct O as [->| ->]; cbn; rewrite E; reflexivity.
Qed.
Lemma case_meaning m l : meaning (NCase m l) = ECase (meaning m) (map clause_meaning l).
Proof. cbn [meaning]. f_equal. apply map_ext. intros [p [g b]]. reflexivity. Qed.
(** The clauses of a division. *)
Lemma zero_or_runs op bound eh0 eh1 d q x y b : op = DivInt \/ op = RemainderInt -> lookup d bound = None -> d <> str "_" ->
  (y <> 0%Z -> runs ([(d, VInt y)] ++ bound) eh0 (meaning q) (eh1, inl (VInt x, b))) ->
  clauses_run bound eh0 (VInt y) (map clause_meaning (zero_or (division_sign op) d q))
    (if (y =? 0)%Z then eh0 else eh1, inl (VInt (quotient op x y), if (y =? 0)%Z then [] else b ++ [(d, VInt y)])).
Proof.
  intros O LD ND Q. assert (DJ := pair_disjoint b). unfold zero_or. cbn [map]. destruct (y =? 0)%Z eqn:Y.
  - assert (y = 0%Z) by lia. subst y. unfold quotient. cbn [Z.eqb].
    exact (clause_chosen forms eworld bound eh0 (VInt 0) (meaning (NInt 0)) [meaning (NInt 0)] _ [] (eh0, inl (VInt 0, [])) eq_refl (body_one _ _ _ _ _ _ (runs_int _ _ _ _ 0))).
  - assert (NZ : y <> 0%Z) by lia. specialize (Q NZ). unfold clause_meaning at 1. cbn [fst snd map]. apply clause_differs.
    + cbn [meaning]. rewrite match_int. destruct (0 =? y)%Z eqn:E; [lia|reflexivity].
    + unfold clause_meaning. cbn [fst snd map].
      assert (M : match_ (meaning (NVar d)) (VInt y) bound = Matches [(d, VInt y)]).
      { cbn [meaning match_]. destruct (text_eqb d (str "_")) eqn:E; [apply text_eqb_eq in E; contradiction|]. rewrite LD. reflexivity. }
      assert (X : runs ([(d, VInt y)] ++ bound) eh0 (meaning (NBinary (division_sign op) q (NVar d))) (eh1, inl (VInt (quotient op x y), b))).
      { cbn [meaning]. eapply runs_op; [destruct op; reflexivity| |apply operates; assumption].
        assert (V : runs ([(d, VInt y)] ++ bound) eh1 (EVar d) (eh1, inl (VInt y, []))).
        { apply runs_var. cbn. rewrite text_eqb_refl. reflexivity. }
        exact (list_cons forms eworld _ _ _ _ _ _ b _ [VInt y] [] Q (list_cons forms eworld _ _ _ _ _ _ [] _ [] [] V (list_nil _ _ _ _) eq_refl) DJ). }
      exact (clause_chosen forms eworld bound eh0 (VInt y) _ _ [] _ _ M (body_one _ _ _ _ _ _ X)).
Qed.
Lemma generated_new s0 s1 d u : at_start used s0 s1 -> d = gen (generated_variables s1) ->
  news s0 (State (taken_names s1) (variable_names s1) (generated_variables s1 + 1)) [(d, u)].
Proof.
  intros A -> y [<-|[]]. split.
  - right. exists (generated_variables s1). cbn. split; [lia|reflexivity].
  - intro H. eapply gen_fresh. eapply start_allocated; [exact A|exact H].
Qed.
Lemma env_unbound s0 genv0 eenv0 y : env_ok used vars s0 genv0 eenv0 -> ~ allocated s0 y -> lookup y eenv0 = None.
Proof. intros (_ & _ & _ & D) N. apply lookup_none. intro I. apply N, D, I. Qed.
Lemma int_value z h0 r : value_of n fn genv h0 (Int z) = Some r -> r = (h0, inl (DInt z)).
Proof. destruct n; [discriminate|]. cbn. intro V. injection V as <-. reflexivity. Qed.
Lemma division_ok op a b ns s' r : op = DivInt \/ op = RemainderInt -> legal used vars a -> legal used vars b ->
  (is_pure_value_constructor a = true -> is_non_zero_compile_time_number b = false -> forall r, value_of n fn genv h a = Some r ->
     exists v, r = (h, inl v) /\ forall h2, value_of n fn genv h2 a = Some (h2, inl v)) ->
  t_division (tex fn) a b (division_sign op) s = Some (ns, s') ->
  next (value_of n fn genv h a) (fun h v => next (value_of n fn genv h b) (fun h w => of_option h (compute op v w))) = Some r -> goal s' ns r.
Proof.
  intros O LA LB SG T V. unfold t_division, how_to_divide in T.
  destruct (is_non_zero_compile_time_number b) eqn:NZ.
  { (* plain *)
    run T. apply sound_one. destruct b; try discriminate.
    eapply two_step; [exact LA|exact LB|exact E|exact E0|exact V| |].
    - intros. apply runs_op_fails; [destruct op; reflexivity|assumption].
    - intros h1 h2 v w eh2 t u c P2 VR WR N V1 V2 R. cbv beta in V2. apply of_option_some in V2. destruct V2 as (x & V2 & ->).
      destruct (divides op v w x O V2) as (x1 & y1 & -> & -> & ->). inversion VR; inversion WR; subst.
      assert (y1 <> 0%Z). { apply int_value in V1. injection V1 as _ ->. cbn in NZ. lia. }
      eapply sound_value; [exact P2|apply v_int|exact N|]. eapply runs_op; [destruct op; reflexivity|exact R|]. apply operates; assumption. }
  destruct (is_pure_value_constructor a) eqn:PU; destruct (is_zero_compile_time_number b) eqn:Z0.
  - (* nothing *)
    run T. destruct b; try discriminate. apply next_some in V. destruct V as (h1 & q & V1 & V). destruct (SG eq_refl eq_refl _ V1) as (v & Q & _). injection Q as -> ->.
    apply next_some in V. destruct V as (h2 & q & V2 & V). apply int_value in V2. injection V2 as -> ->. apply of_option_some in V. destruct V as (u & C & ->).
    destruct (divides op _ _ u O C) as (x & y & -> & Y & ->). injection Y as <-. cbn in Z0. unfold quotient. rewrite Z0.
    eapply sound_now; [exact P|apply v_int|]. apply body_one, runs_int.
  - (* the right first *)
    run T. rewrite new_generated in E0. injection E0 as <- <-. set (sd := State _ _ _) in *. set (d := gen (generated_variables s0)) in *.
    apply next_some in V. destruct V as (h1 & q & V1 & V). destruct (SG eq_refl eq_refl _ V1) as (v & Q & VA). injection Q as -> ->.
    apply sound_one. rewrite case_meaning. eapply one_step; [exact LB|exact E|exact V| |].
    + intros. apply runs_case_fails. assumption.
    + intros h2 w eh2 u bb A1 P2 WR N V2 R. cbv beta in V2. apply of_option_some in V2. destruct V2 as (z & C & ->).
      destruct (divides op _ _ z O C) as (x & y & -> & -> & ->). inversion WR; subst u.
      assert (A2 : at_start used s0 sd) by apply generated_start. assert (A3 : at_start used s sd) by (eapply start_trans; eassumption).
      assert (N2 : news s sd ([(d, VInt y)] ++ bb)).
      { apply news_app; [eapply news_later; [exact A2|exact N]|]. eapply generated_new; [exact A1|reflexivity]. }
      assert (K2 := env_extended _ _ _ _ _ _ _ _ _ _ K A3 N2). assert (A4 := maybe_start _ _ _ _ _ _ _ _ _ _ _ _ K2 LA E1).
      destruct (IM _ _ _ _ _ _ _ _ _ _ _ _ U K2 LA P2 E1 (VA h2)) as (eh3 & P3 & X). cbn [fst snd] in P3, X. destruct X as (t & ba & VR & N3 & R3).
      inversion VR; subst t. rewrite <- app_assoc in R3.
      assert (LD : lookup d (bb ++ eenv) = None).
      { eapply env_unbound; [exact (env_extended _ _ _ _ _ _ _ _ _ _ K A1 N)|]. apply gen_fresh. }
      assert (CL := zero_or_runs op (bb ++ eenv) eh2 eh3 d r2 x y ba O LD (gen_not_discard _) (fun _ => R3)).
      assert (RC := runs_case forms eworld eenv eh _ _ _ _ _ _ R CL). unfold lift in RC. cbn [fst snd] in RC.
      eapply sound_value; [|apply v_int| |exact RC]; [destruct (y =? 0)%Z; assumption|].
      destruct (y =? 0)%Z.
      * cbn [app]. eapply news_later; [|exact N]. eapply start_trans; [exact A2|exact A4].
      * rewrite <- app_assoc. eapply news_two; [exact A3|exact A4|exact N2|exact N3].
  - (* the left, and zero *)
    run T. destruct b; try discriminate. cbn [map]. eapply one_step; [exact LA|exact E|exact V| |].
    + intros. apply body_head; [assumption|discriminate].
    + intros h1 v eh1 t c A1 P1 VR N V1 R. cbv beta in V1. apply next_some in V1. destruct V1 as (h2 & q & V2 & V3). apply int_value in V2. injection V2 as -> ->.
      apply of_option_some in V3. destruct V3 as (u & C & ->). destruct (divides op _ _ u O C) as (x & y & -> & Y & ->). injection Y as <-. cbn in Z0. unfold quotient. rewrite Z0.
      eapply sound_value; [exact P1|apply v_int|exact N|].
      assert (B := body_cons forms eworld eenv eh _ [int_meaning 0] _ _ _ _ R ltac:(discriminate) (body_one _ _ _ _ _ _ (runs_int _ _ _ _ 0))).
      exact B.
  - (* the left, then the right *)
    run T. rewrite new_generated in E. injection E as <- <-. rewrite new_generated in E2. injection E2 as <- <-.
    set (sx := State (taken_names s) (variable_names s) (generated_variables s + 1)) in *. set (x := gen (generated_variables s)) in *.
    set (s4 := State (taken_names s2) (variable_names s2) (generated_variables s2 + 1)) in *. set (d := gen (generated_variables s2)) in *. rename s1 into sl. rename s2 into sr.
    assert (A1 : at_start used s sx) by apply generated_start. assert (K1 := env_later _ _ _ _ _ _ _ _ _ K A1).
    assert (A2 := maybe_start _ _ _ _ _ _ _ _ _ _ _ _ K1 LA E0). assert (A12 : at_start used s sl) by (eapply start_trans; eassumption).
    cbn [map]. rewrite case_meaning. change (meaning (NMatch (NVar x) r1)) with (EMatch (EVar x) (meaning r1)).
    apply next_some in V. destruct V as (h1 & q & V1 & V).
    destruct (IM _ _ _ _ _ _ _ _ _ _ _ _ U K1 LA P E0 V1) as (eh1 & P1 & X). cbn [fst snd] in P1, X. destruct q as [v|f].
    2:{ subst r. destruct X as (u & RU & RS). eapply sound_fail; [exact P1|exact RU|]. apply body_head; [|discriminate]. apply runs_match_fails, RS. }
    destruct X as (t & ba & VR & N & R).
    assert (NX : ~ allocated s x) by apply gen_fresh.
    assert (LX : lookup x (ba ++ eenv) = None).
    { rewrite lookup_app, lookup_none; [exact (env_unbound _ _ _ _ K NX)|]. intro I. apply (N x I). right. exists (generated_variables s). cbn. split; [lia|reflexivity]. }
    assert (RM : runs eenv eh (EMatch (EVar x) (meaning r1)) (eh1, inl (t, [(x, t)] ++ ba))).
    { eapply runs_match; [exact R|]. cbn [match_]. destruct (text_eqb x (str "_")) eqn:E; [apply text_eqb_eq in E; exfalso; eapply gen_not_discard, E|]. rewrite LX. reflexivity. }
    assert (NB : news s sl ([(x, t)] ++ ba)).
    { apply news_app; [eapply news_earlier; [exact A1|exact N]|]. intros y [<-|[]]. split; [|exact NX].
      eapply start_allocated; [exact A2|]. right. exists (generated_variables s). cbn. split; [lia|reflexivity]. }
    assert (K2 := env_extended _ _ _ _ _ _ _ _ _ _ K A12 NB). assert (A3 := maybe_start _ _ _ _ _ _ _ _ _ _ _ _ K2 LB E1).
    assert (A4 : at_start used sr s4) by apply generated_start. assert (A34 : at_start used sl s4) by (eapply start_trans; eassumption).
    eapply sound_after with (run2 := body_runs (([(x, t)] ++ ba) ++ eenv) eh1 [ECase (meaning r2) (map clause_meaning (zero_or (division_sign op) d (NVar x)))]); [exact A12|exact A34|exact NB| |].
    2:{ intros q Q. eapply body_cons; [exact RM|discriminate|exact Q]. }
    apply sound_one. apply next_some in V. destruct V as (h2 & q & V2 & V).
    destruct (IM _ _ _ _ _ _ _ _ _ _ _ _ U K2 LB P1 E1 V2) as (eh2 & P2 & X). cbn [fst snd] in P2, X. destruct q as [w|f].
    2:{ subst r. destruct X as (u & RU & RS). eapply sound_fail; [exact P2|exact RU|]. apply runs_case_fails, RS. }
    destruct X as (u & bb & WR & N2 & R2). apply of_option_some in V. destruct V as (z & C & ->).
    destruct (divides op _ _ z O C) as (xz & y & -> & -> & ->). inversion WR; subst u. inversion VR; subst t.
    assert (K3 := env_extended _ _ _ _ _ _ _ _ _ _ K2 A3 N2).
    assert (LD : lookup d (bb ++ ([(x, VInt xz)] ++ ba) ++ eenv) = None).
    { eapply env_unbound; [exact K3|]. apply gen_fresh. }
    assert (VX : y <> 0%Z -> runs ([(d, VInt y)] ++ bb ++ ([(x, VInt xz)] ++ ba) ++ eenv) eh2 (meaning (NVar x)) (eh2, inl (VInt xz, []))).
    { intros _. apply runs_var. assert (NDX : text_eqb x d = false).
      { destruct (text_eqb x d) eqn:E; [|reflexivity]. apply text_eqb_eq in E. exfalso. apply (gen_fresh sr). fold d. rewrite <- E.
        eapply start_allocated; [exact A3|]. apply (NB x). left. reflexivity. }
      cbn [app]. cbn [lookup]. rewrite NDX. rewrite lookup_app, lookup_none; [cbn; rewrite text_eqb_refl; reflexivity|].
      intro I. apply (N2 x I). apply (NB x). left. reflexivity. }
    assert (CL := zero_or_runs op _ eh2 eh2 d (NVar x) xz y [] O LD (gen_not_discard _) VX).
    assert (RC := runs_case forms eworld _ _ _ _ _ _ _ _ R2 CL). unfold lift in RC. cbn [fst snd] in RC.
    eapply sound_value; [exact P2|apply v_int| |]; [|replace (if (y =? 0)%Z then eh2 else eh2) with eh2 in RC by (destruct (y =? 0)%Z; reflexivity); exact RC].
    destruct (y =? 0)%Z.
    + cbn [app]. eapply news_later; [|exact N2]. exact A4.
    + cbn [app]. change ((d, VInt y) :: bb) with ([(d, VInt y)] ++ bb). apply news_app; [eapply news_later; [exact A4|exact N2]|].
      eapply generated_new; [exact A3|reflexivity].
Qed.

(** ** Calls *)

Context (IA : A_at n).
Lemma var_value x c h0 r : value_of n fn genv h0 (Var x c) = Some r -> exists v, variable_value module genv x c = Some v /\ r = (h0, inl v).
Proof. destruct n; [discriminate|]. apply of_option_some. Qed.
Lemma nil_values h0 r : values_of n fn genv h0 [] = Some r -> r = (h0, inl []).
Proof. destruct n; [discriminate|]. intro V. injection V as <-. reflexivity. Qed.
Lemma record_applied h0 c l vs r : applied n h0 (DRecord c l) vs = Some r -> False.
Proof. destruct n; discriminate. Qed.
Lemma constructor_applied h0 c k vs r : applied n h0 (DConstructor c k) vs = Some r -> r = (h0, inl (DRecord c vs)).
Proof. destruct n; [discriminate|]. cbn. destruct (Nat.eqb _ _); [|discriminate]. intro V. injection V as <-. reflexivity. Qed.
Lemma function_applied h0 f a vs r : applied n h0 (DFunction f a) vs = Some r -> a = N.of_nat (length vs).
Proof. destruct n; [discriminate|]. cbn. destruct (a =? _)%N eqn:E; [|discriminate]. intros _. lia. Qed.
Lemma foreign_applied h0 f a vs r : applied n h0 (DForeign f a) vs = Some r -> a = N.of_nat (length vs).
Proof. destruct n; [discriminate|]. cbn. destruct (a =? _)%N eqn:E; [|discriminate]. intros _. lia. Qed.
Lemma sound_call h1 eh1 f t vs ts b s' r (run : history * ((term * env) + term) -> Prop) : vrel f t -> Forall2 vrel vs ts -> represents_past h1 eh1 ->
  applied n h1 f vs = Some r -> news s s' b -> (forall q, call_runs eh1 t ts q -> run (lift (fun v => (v, b)) q)) -> sound s s' run r.
Proof.
  intros VF VS P1 V N I. destruct (IA _ _ _ _ _ _ _ VF VS P1 V) as (eh2 & P2 & X). destruct r as [h2 [v|f0]]; cbn [fst snd] in *.
  - destruct X as (u & VR & C). eapply sound_value; [exact P2|exact VR|exact N|exact (I _ C)].
  - destruct X as (u & VR & C). eapply sound_fail; [exact P2|exact VR|exact (I _ C)].
Qed.
Lemma call_ok f args ns s' r : legal used vars (Call f args) -> tex fn (Call f args) s = Some (ns, s') -> value_of (S n) fn genv h (Call f args) = Some r -> goal s' ns r.
Proof.
  intros (LF & _ & LA) T V. cbn [t_expression t_expression_] in T. run T. unfold t_call in E. cbn [ErlangCodeSpec.value_of] in V. apply sound_one.
  destruct (how_to_call f) as [c|m name|] eqn:HC.
  - (* a record *)
    assert (F : exists x o, f = Var x (Record_ c o)).
    { destruct f; try discriminate. destruct constructor as [|? ? ? [[? ?]|]|]; try discriminate. injection HC as ->. eauto. }
    destruct F as (x & o & ->). assert (UC : valid_upname c = true) by exact LF. apply next_some in V. destruct V as (h1 & q & V1 & V). apply var_value in V1. destruct V1 as (fv & V1 & Q). injection Q as -> ->.
    destruct args as [|a args].
    + run E. apply next_some in V. destruct V as (h2 & q & V2 & V). apply nil_values in V2. injection V2 as -> ->.
      destruct o as [k|]; cbn [variable_value] in V1; injection V1 as <-; [|apply record_applied in V; contradiction].
      apply constructor_applied in V. subst r. eapply sound_now; [exact P|apply v_constant, UC|]. apply runs_atom.
    + set (l := a :: args) in *. assert (E' : (do inner <- map_m (t_maybe (tex fn)) l; ret (NTuple (NAtom (to_snake_case c) :: inner))) s = Some (r0, s0)) by exact E.
      clear E. run E'. eapply many_step; [exact LA|exact E|exact V| |].
      * intros eh1 t R. apply args_list in R. apply (runs_tuple forms eworld eenv eh _ (eh1, inr t)). cbn [map]. eapply list_tail; [apply runs_atom|exact R].
      * intros h1 vs eh1 ts b A1 P1 VR N V2 R. destruct o as [k|]; cbn [variable_value] in V1; injection V1 as <-; [|apply record_applied in V2; contradiction].
        apply constructor_applied in V2. subst r. assert (LN := args_length _ _ _ _ _ _ _ _ R). apply map_m_length in E. rewrite map_length in LN.
        destruct vs as [|v vs]; [inversion VR; subst; cbn in *; rewrite E in LN; discriminate|].
        eapply sound_value; [exact P1|apply v_record; [exact UC|exact VR]|exact N|]. apply args_list in R. cbn [meaning map].
        assert (X := list_cons forms eworld eenv eh _ _ _ _ [] _ _ _ (runs_atom _ _ _ _ (to_snake_case c)) R eq_refl). rewrite app_nil_r in X.
        exact (runs_tuple _ _ _ _ _ _ X).
  - (* a function *)
    assert (F : exists x mo g a ext p, f = Var x (ModuleFn mo g a ext p) /\ (m, name) = match ext with Some e => e | None => (mo, g) end).
    { destruct f; try discriminate. destruct constructor as [|? ? ? [[? ?]|]|]; try discriminate; injection HC as <- <-; do 6 eexists; split; reflexivity. }
    destruct F as (x & mo & g & a & ext & p & -> & NM). apply next_some in V. destruct V as (h1 & q & V1 & V). apply var_value in V1. destruct V1 as (fv & V1 & Q). injection Q as -> ->.
    change (legal_variable module vars x (ModuleFn mo g a ext p)) in LF. run E. cbn [module_name].
    eapply many_step; [exact LA|exact E0|exact V| |].
    + intros eh1 t R. apply args_list in R. destruct (text_eqb m module); [apply call_atom_fails, R|apply call_remote_fails, R].
    + intros h1 vs eh1 ts b A1 P1 VR N V2 R. assert (LN := args_length _ _ _ _ _ _ _ _ R). assert (LV := rels_length _ _ _ VR). apply args_list in R.
      destruct ext as [[em ef]|].
      * injection NM as -> ->. destruct LF as (L1 & L2 & L3). injection V1 as <-. destruct (text_eqb em module) eqn:EM; [apply text_eqb_eq in EM; contradiction|].
        assert (EF : escape_erlang_existing_name ef = ef).
        { unfold escape_erlang_existing_name. destruct (text_eqb ef (str "module_info")) eqn:EI; [apply text_eqb_eq in EI; contradiction|reflexivity]. }
        rewrite EF. assert (AR := foreign_applied _ _ _ _ _ V2).
        eapply sound_call; [apply v_foreign, L3|exact VR|exact P1|exact V2|exact N|]. intros q Q. cbn [meaning]. eapply call_remote; [exact R|]. 
        rewrite <- LN, <- LV, <- AR. exact Q.
      * injection NM as -> ->. cbn [variable_value legal_variable] in V1, LF. injection V1 as <-. destruct (text_eqb mo module).
        -- assert (AR := function_applied _ _ _ _ _ V2).
           eapply sound_call; [apply v_function|exact VR|exact P1|exact V2|exact N|]. intros q Q. cbn [meaning]. eapply call_atom; [exact R|].
           rewrite <- LN, <- LV, <- AR. exact Q.
        -- assert (AR := foreign_applied _ _ _ _ _ V2).
           eapply sound_call; [apply v_foreign, LF|exact VR|exact P1|exact V2|exact N|]. intros q Q. cbn [meaning]. eapply call_remote; [exact R|]. 
           rewrite <- LN, <- LV, <- AR. exact Q.
  - (* a value *)
    run E. cbn [meaning]. apply next_some in V. destruct V as (h1 & q & V1 & V). rename r1 into mf, r2 into ms.
    assert (A1 := maybe_start _ _ _ _ _ _ _ _ _ _ _ _ K LF E0). assert (K1 := env_later _ _ _ _ _ _ _ _ _ K A1). assert (A2 := maybes_start _ _ _ _ _ _ _ _ _ _ _ _ K1 LA E1).
    destruct (IM _ _ _ _ _ _ _ _ _ _ _ _ U K LF P E0 V1) as (eh1 & P1 & X). cbn [fst snd] in P1, X.
    assert (DC : direct_call (meaning mf) = true \/ exists a, meaning mf = EAtom a).
    { apply meaning_direct. }
    destruct q as [fv|f0].
    2:{ subst r. destruct X as (u & RU & RS). destruct DC as [DC|(a & DC)].
        - eapply sound_fail; [exact P1|exact RU|]. apply call_value_fails; [exact DC|]. apply list_head, RS.
        - rewrite DC in RS. assert (Q := ends_same _ _ _ RS (runs_atom _ _ _ _ a)). discriminate. }
    destruct X as (t & bf & VF & N & RF). apply next_some in V. destruct V as (h2 & q & V2 & V).
    destruct (IL _ _ _ _ _ _ _ _ _ _ _ _ U K1 LA P1 E1 V2) as (eh2 & P2 & X). cbn [fst snd] in P2, X. destruct DC as [DC|(a & DC)].
    + destruct q as [vs|f0].
      * destruct X as (ts & b & VS & N2 & R). eapply sound_call; [exact VF|exact VS|exact P2|exact V|eapply news_two; eassumption|].
        intros q Q. eapply call_value; [exact DC| |exact Q]. eapply list_cons; [exact RF|apply args_list, R|eapply news_disjoint; eassumption].
      * subst r. destruct X as (u & RU & RS). eapply sound_fail; [exact P2|exact RU|]. apply call_value_fails; [exact DC|]. eapply list_tail; [exact RF|apply args_list, RS].
    + rewrite DC in *. assert (Q := ends_same _ _ _ RF (runs_atom _ _ _ _ a)). injection Q as -> -> ->. destruct q as [vs|f0].
      * inversion VF; subst. apply record_applied in V. contradiction.
      * subst r. destruct X as (u & RU & RS). eapply sound_fail; [exact P2|exact RU|]. apply call_atom_fails. apply args_list, RS.
Qed.
End Expression.
End Step.
End Sim.
