(** The code that is generated does what the code of the program does: all together. *)
From Coq Require Import String NArith ZArith List Bool Lia Permutation ZifyBool ZifyN ZifyNat.
From Verif Require Import Text TextProofs Strings StringsSpec StringsProofs Erl ErlangSource ErlangSourceSpec ErlangTypes
  ErlangCode ErlangRun ErlangRunProofs ErlangCodeSpec ErlangCodeTree ErlangCodeCalls ErlangCodeNames ErlangCodeState ErlangCodeRel ErlangCodeEnv
  ErlangCodeSim ErlangCodeSimExpr ErlangCodeSimLet ErlangCodeSimCase ErlangCodeSimBody ErlangCodeSimAll.
Import ListNotations.
Local Open Scope nat_scope.
Local Open Scope list_scope.

Section Sim.
Context (module path : text) (lines : N -> N) (forms : list form) (eworld : history -> text -> text -> list term -> option term)
  (functions : list function) (gworld : past -> foreign -> list value -> option value).
Notation ctx fn := (Context module path fn lines).
Notation vrel := (vrel module path lines).
Notation env_ok := (env_ok module path lines).
Notation legal := (legal module).
Notation legal_body := (legal_body legal).
Notation legal_steps := (legal_steps legal).
Notation legal_call := (legal_call legal).
Notation tex fn := (t_expression (ctx fn)).
Notation value_of := (value_of module lines functions gworld).
Notation values_of := (values_of module lines functions gworld).
Notation value_of_steps := (value_of_steps module lines functions gworld).
Notation value_of_body := (value_of_body module lines functions gworld).
Notation value_of_branches := (value_of_branches module lines functions gworld).
Notation applied := (applied module lines functions gworld).
Notation runs := (runs forms eworld).
Notation list_runs := (list_runs forms eworld).
Notation body_runs := (body_runs forms eworld).
Notation args_run := (args_run forms eworld).
Notation clauses_run := (clauses_run forms eworld).
Notation call_runs := (call_runs forms eworld).
Notation sound := (sound module path lines).
Notation sounds := (sounds module path lines).
Notation E_at := (E_at module path lines forms eworld functions gworld).
Notation M_at := (M_at module path lines forms eworld functions gworld).
Notation T_at := (T_at module path lines forms eworld functions gworld).
Notation L_at := (L_at module path lines forms eworld functions gworld).
Notation S_at := (S_at module path lines forms eworld functions gworld).
Notation B_at := (B_at module path lines forms eworld functions gworld).
Notation R_at := (R_at module path lines forms eworld functions gworld).
Notation A_at := (A_at module path lines forms eworld functions gworld).
Notation reports_ := (reports vrel (unescaped path) module).
Context (PM : unescaped module = module).

(** ** Bodies *)

Lemma body_step n : E_at n -> B_at n -> B_at (S n).
Proof.
  intros IE IB fn l used vars genv eenv s ns s' h eh r U K L NE P T V. assert (IM := maybe_holds _ _ _ _ _ _ _ n IE).
  destruct l as [|[e|p e|p e e_end msg location] l]; [contradiction| | |].
  - destruct L as [L1 LB]. cbn [t_body] in T. apply bind_some in T. destruct T as (first & s1 & E & T). apply bind_some in T. destruct T as (rest & s2 & E0 & T).
    apply ret_some in T. destruct T as [<- ->]. cbn [ErlangCodeSpec.value_of_body] in V. apply next_some in V. destruct V as (h2 & q2 & V0 & V).
    apply next_some in V0. destruct V0 as (h1 & q & V1 & V2). assert (S1 := IE _ _ _ _ _ _ _ _ _ _ _ _ U K L1 P E V1).
    destruct l as [|st l].
    + cbn [t_body] in E0. apply ret_some in E0. destruct E0 as [<- ->]. rewrite app_nil_r. assert (r = (h1, q)) as ->; [|exact S1].
      destruct q; [injection V2 as <- <-; injection V as <-; reflexivity|injection V2 as -> ->; exact V].
    + set (l1 := st :: l) in *. assert (A1 := expr_start _ _ _ _ _ _ _ _ _ _ _ _ K L1 E). rewrite map_app. assert (NB : rest <> []) by (eapply body_not_empty; [|exact E0]; discriminate).
      destruct S1 as (eh1 & P1 & X). cbn [fst snd] in P1, X. destruct q as [v|f].
      * destruct X as (t & b & VR & N & R). injection V2 as <- <-. cbn [snd] in V. assert (K1 := env_extended _ _ _ _ _ _ _ _ _ _ K A1 N).
        assert (A2 := body_start _ _ _ _ _ _ _ _ _ _ _ _ K1 LB E0). eapply sound_after; [exact A1|exact A2|exact N| |intros q Q; exact (body_app _ _ _ _ _ _ _ _ _ _ R Q)].
        eapply IB; try eassumption. discriminate.
      * destruct X as (t & RT & R). injection V2 as -> ->. subst r. eapply sound_fail; [exact P1|exact RT|]. apply body_app_fails; [exact R|]. destruct rest; [contradiction|discriminate].
  - destruct L as (L1 & LP & A & F & LB). cbn [t_body] in T.
    cbn [ErlangCodeSpec.value_of_body] in V. apply next_some in V. destruct V as (h2 & q2 & V0 & V). apply next_some in V0. destruct V0 as (h1 & q & V1 & V2).
    change (value_of n fn genv h e = Some (h1, q)) in V1. eapply let_body; try eassumption; [exact (aliased_none _ A)| |rewrite V1; discriminate]. intros q0 Q. rewrite V1 in Q. injection Q as <-. destruct q as [v|f].
    + destruct (matches p v) as [[gb|]|]; try discriminate. injection V2 as <- <-. exists gb. split; [reflexivity|exact V].
    + injection V2 as -> ->. exact V.
  - destruct L as (L1 & LP & F & LM & LB). destruct (always_matches p) eqn:AM; [|eapply assert_ok; eassumption].
    cbn [t_body] in T. rewrite AM in T.
    cbn [ErlangCodeSpec.value_of_body] in V. apply next_some in V. destruct V as (h2 & q2 & V0 & V). apply next_some in V0. destruct V0 as (h1 & q & V1 & V2).
    change (value_of n fn genv h e = Some (h1, q)) in V1. eapply let_body; try eassumption; [exact (always_no_prefixes _ AM)| |rewrite V1; discriminate]. intros q0 Q. rewrite V1 in Q. injection Q as <-. destruct q as [v|f].
    + assert (MV := always_match p AM v). destruct (matches p v) as [[gb|]|]; [|contradiction|discriminate]. injection V2 as <- <-. exists gb. split; [reflexivity|exact V].
    + injection V2 as -> ->. exact V.
Qed.
Lemma branch_body_step n : E_at (S n) -> B_at n -> T_at (S n).
Proof.
  intros IE IB fn e used vars genv eenv s ns s' h eh r U K L NE P T V.
  destruct e; try (eapply IE; [exact U|exact K|exact L|exact P|exact T|exact V]).
  cbn [branch_body] in T. cbn [ErlangCodeSpec.value_of] in V. destruct L as [NL L]. eapply IB; eassumption.
Qed.

(** ** Calls *)

Lemma parameters_ok s : forall args vs ts gb, NoDup (map fst (arguments_bound args)) -> (forall x, In x (map fst (arguments_bound args)) -> legal_name x) ->
  Forall2 vrel vs ts -> arguments_values args vs = Some gb ->
  exists l, parameters (map EVar (parameter_names s args)) ts = Some l /\ binds module path lines (rho s) (arguments_bound args) [] gb l.
Proof.
  induction args as [|[x|x at_] args IH]; intros vs ts gb N L R V; cbn [arguments_values] in V.
  - destruct vs; [|discriminate]. inversion R; subst. injection V as <-. exists []. split; [reflexivity|apply binds_nil].
  - destruct vs as [|v vs]; [discriminate|]. inversion R; subst. destruct (IH _ _ _ N L H3 V) as (l & E & B). exists l. split; [|exact B].
    cbn [parameter_names map parameters]. change (map _ args) with (parameter_names s args). rewrite E. reflexivity.
  - destruct vs as [|v vs]; [discriminate|]. inversion R; subst. destruct (arguments_values args vs) as [gb0|] eqn:AV; [|discriminate]. injection V as <-.
    cbn [arguments_bound flat_map app map] in N, L. change (flat_map _ args) with (arguments_bound args) in N, L. inversion N as [|? ? NX N']; subst.
    destruct (IH _ _ _ N' (fun z Z => L z (or_intror Z)) H3 AV) as (l & E & B). exists ((rho s x, y) :: l).
    assert (LX : legal_name x) by (apply L; left; reflexivity).
    assert (D : lookup (rho s x) l = None).
    { apply lookup_none. intro J. destruct (proj1 B _ J) as (z & Z & EZ). apply rho_inj in EZ; [subst; contradiction|exact LX|apply L; right; exact Z]. }
    split.
    + cbn [parameter_names map parameters]. change (map _ args) with (parameter_names s args). rewrite E.
      destruct (text_eqb (rho s x) (str "_")) eqn:E1; [apply text_eqb_eq in E1; exfalso; exact (rho_plain s x LX E1)|]. rewrite D. reflexivity.
    + cbn [arguments_bound flat_map app]. change (flat_map _ args) with (arguments_bound args). destruct B as (B1 & B2 & B3 & B4). repeat split; cbn [map fst].
      * intros z [<-|Z]; [exists x; split; [left|]; reflexivity|]. destruct (B1 z Z) as (w & W & ->). exists w. split; [right; exact W|reflexivity].
      * intros z [<-|Z]; cbn [lookup]; [rewrite ! text_eqb_refl; exists v, y; auto|]. destruct (B2 z Z) as (w & u & W1 & W2 & W3). exists w, u.
        destruct (text_eqb z x) eqn:E1; [apply text_eqb_eq in E1; subst; contradiction|].
        destruct (text_eqb (rho s z) (rho s x)) eqn:E2; [|auto]. apply text_eqb_eq in E2. apply rho_inj in E2; [subst; contradiction|apply L; right; exact Z|exact LX].
      * intros z at1 w [].
      * intros z [<-|Z]; [left; left; reflexivity|]. destruct (B4 z Z) as [W|W]; [left; right; exact W|right; exact W].
Qed.
Lemma binds_arguments used vars s genv eenv args gb l : env_ok used vars s genv eenv -> fresh used (arguments_bound args) ->
  binds module path lines (rho s) (arguments_bound args) [] gb l ->
  env_ok (map snd (arguments_bound args) ++ used) (arguments_bound args ++ vars) (alloc (arguments_bound args) s) (gb ++ genv) (l ++ eenv).
Proof.
  intros K F (B1 & B2 & _ & B4). eapply env_bind; [exact K|apply alloc_start, F|exact F| | |exact B2|].
  - intros x at_ X. apply place_alloc; [apply F|apply F|exact X].
  - intros x X. destruct (B4 x X) as [Y|[]]. exact Y.
  - apply news_names. intros y Y. destruct (B1 y Y) as (x & X & ->). exists x. assert (LX := fresh_legal _ _ _ F X). split; [exact LX|]. split; [reflexivity|].
    apply alloc_allocated; [apply F|exact X|exact LX].
Qed.

(** The functions of the module are defined in the code. *)
Context (FN : forall f fd, function_named functions f = Some fd ->
  legal_function module fd /\ f_name fd = f /\ unescaped f = f /\
  exists ns s1, t_body (ctx f) (tex f) (f_body fd) (alloc (arguments_bound (f_arguments fd)) (State [] [] 0)) = Some (ns, s1) /\
    definition forms (exported_name f) (length (f_arguments fd)) = Some (map EVar (parameter_names (State [] [] 0) (f_arguments fd)), map meaning ns)).
Context (SW : same_world gworld eworld).

Lemma arguments_length args : forall vs gb, arguments_values args vs = Some gb -> length args = length vs.
Proof.
  induction args as [|[x|x at_] args IH]; intros [|v vs] gb V; cbn [arguments_values] in V; try discriminate; [reflexivity| |]; cbn [length]; f_equal.
  - eapply IH, V.
  - destruct (arguments_values args vs) eqn:E; [|discriminate]. eapply IH, E.
Qed.
Lemma call_from_body s s' r (run : history * (term + term) -> Prop) (body : history * ((term * env) + term) -> Prop) :
  sound s s' body r -> (forall q, body q -> run (lift fst q)) ->
  exists eh', represents_past (fst r) eh' /\
  match snd r with
  | inl v => exists u, vrel v u /\ run (eh', inl u)
  | inr f => exists u, reports vrel (unescaped path) module f u /\ run (eh', inr u)
  end.
Proof.
  intros (eh & P & X) I. exists eh. split; [exact P|]. destruct (snd r) as [v|f].
  - destruct X as (t & b & VR & _ & R). exists t. split; [exact VR|exact (I _ R)].
  - destruct X as (t & RT & R). exists t. split; [exact RT|exact (I _ R)].
Qed.
Lemma call_step n : B_at n -> A_at (S n).
Proof.
  intros IB h eh f t vs ts r R RS P V. assert (LEN := rels_length _ _ _ RS). destruct R; cbn [ErlangCodeSpec.applied] in V; try discriminate.
  - (* closure *) destruct (arguments_values args vs) as [gb|] eqn:AV; [|discriminate].
    destruct (parameters_ok s args vs ts gb (proj1 H0) (fun x X => fresh_legal _ _ _ H0 X) RS AV) as (l & PE & B).
    assert (K := binds_arguments used vars s genv eenv args gb l (conj H3 (conj H4 (conj H6 H7))) H0 B).
    eapply call_from_body; [eapply IB; [exact H|exact K|exact H2|exact H1|exact P|exact H5|exact V]|]. intros q Q. eapply call_fun; [exact PE|exact Q].
  - (* constructor *) destruct (Nat.eqb_spec (length vs) n0) as [E|E]; [|discriminate]. injection V as <-. exists eh. split; [exact P|].
    assert (LX : length xs = length ts) by congruence.
    assert (PE := parameters_combine xs ts LX H1 H2). assert (RV := vars_run forms eworld _ eh xs ts (combine_lookup xs ts env LX H1)).
    destruct xs as [|x xs].
    + destruct ts; [|discriminate]. destruct vs; [|cbn in *; congruence]. eexists. split; [constructor; assumption|].
      exact (call_fun _ _ _ _ _ _ _ _ (eh, inl (_, _)) PE (body_one _ _ _ _ _ _ (runs_atom _ _ _ _ _))).
    + destruct vs as [|v vs]; [inversion RS; subst; discriminate|]. eexists. split; [apply v_record; eassumption|].
      exact (call_fun _ _ _ _ _ _ _ _ (eh, inl (_, _)) PE (body_one _ _ _ _ _ _ (runs_tuple _ _ _ _ _ (eh, inl (_, _)) (list_cons _ _ _ _ _ _ _ _ _ _ _ _ (runs_atom _ _ _ _ _) RV eq_refl)))).
  - (* function *) destruct (N.eqb_spec arity (N.of_nat (length vs))) as [E|E]; [|discriminate]. destruct (function_named functions f) as [fd|] eqn:NF; [|discriminate].
    destruct (arguments_values (f_arguments fd) vs) as [gb|] eqn:AV; [|discriminate].
    destruct (FN f fd NF) as ((LN & F & NE & LB) & NM & U & ns & s1 & TB & DF). rewrite NM in V.
    destruct (parameters_ok (State [] [] 0) _ vs ts gb (proj1 F) (fun x X => fresh_legal _ _ _ F X) RS AV) as (l & PE & B).
    assert (K0 : env_ok [] [] (State [] [] 0) [] []) by (split; [intros x []|split; [intros x l0 X; first [discriminate X|destruct X]|split; [intros x l0 X; discriminate X|intros y []]]]).
    assert (K := binds_arguments [] [] _ [] [] _ gb l K0 F B). rewrite ! app_nil_r in K.
    eapply call_from_body; [eapply IB; [exact U|exact K|exact LB|exact NE|exact P|exact TB|exact V]|]. intros q Q. subst arity. rewrite LEN.
    eapply call_ref; [|exact PE|exact Q]. rewrite <- LEN, <- (arguments_length _ _ _ AV). exact DF.
  - (* foreign *) destruct (N.eqb_spec arity (N.of_nat (length vs))) as [E|E]; [|discriminate]. cbn [andb] in V. destruct (forallb first_order vs) eqn:FO; [|discriminate].
    destruct (gworld h f vs) as [v|] eqn:GW; [|discriminate]. destruct (first_order v) eqn:FV; [|discriminate]. injection V as <-.
    assert (RP := rels_represent _ _ _ _ _ RS FO). destruct (SW h eh f vs ts v P RP GW FV) as (u & EW & RU).
    exists ((foreign_module f, foreign_name f, ts) :: eh). cbn [fst snd]. split; [constructor; [auto|exact P]|]. exists u. split; [apply represents_rel, RU|].
    subst arity. rewrite LEN. apply call_world; [apply H|exact EW].
Qed.

(** ** Expressions *)

Lemma operator_ok n (IE : E_at n) (IL : L_at n) fn op a b used vars genv eenv s ns s' h eh r : unescaped fn = fn -> env_ok used vars s genv eenv ->
  legal used vars (BinOp op a b) -> represents_past h eh -> tex fn (BinOp op a b) s = Some (ns, s') -> value_of (S n) fn genv h (BinOp op a b) = Some r ->
  sound s s' (body_runs eenv eh (map meaning ns)) r.
Proof.
  intros U K L P T V. assert (IM := maybe_holds _ _ _ _ _ _ _ n IE).
  destruct op;
    try (eapply and_ok; eassumption); try (eapply or_ok; eassumption); try (eapply concat_ok; eassumption);
    destruct L as (La & Lb & LO);
    try (match type of T with tex _ (BinOp ?o _ _) _ = _ =>
      eapply (fun sy => strict_ok _ _ _ _ _ _ _ n IM fn used vars genv eenv s h eh U K P o sy a b ns s' r); [reflexivity|discriminate|discriminate|exact La|exact Lb|exact T|exact V] end).
  - eapply (division_ok _ _ _ _ _ _ _ n IE IM IL fn used vars genv eenv s h eh U K P DivInt); [left; reflexivity|exact La|exact Lb| |exact T|exact V].
    intros PV NZ r0 V0. destruct LO as [LS|[LS|LZ]]; [eapply settled_value; [exact LS|exact V0]|rewrite pure_shows_none, LS in PV; discriminate PV|destruct b; try destruct LZ; cbn in NZ; lia].
  - eapply (division_ok _ _ _ _ _ _ _ n IE IM IL fn used vars genv eenv s h eh U K P RemainderInt); [right; reflexivity|exact La|exact Lb| |exact T|exact V].
    intros PV NZ r0 V0. destruct LO as [LS|[LS|LZ]]; [eapply settled_value; [exact LS|exact V0]|rewrite pure_shows_none, LS in PV; discriminate PV|destruct b; try destruct LZ; cbn in NZ; lia].
Qed.
Lemma expression_step n : E_at n -> L_at n -> S_at n -> B_at n -> R_at n -> A_at n -> E_at (S n).
Proof.
  intros IE IL IS IB IR IA fn e used vars genv eenv s ns s' h eh r U K L P T V. assert (IM := maybe_holds _ _ _ _ _ _ _ n IE).
  destruct e.
  - eapply int_ok; eassumption.
  - eapply string_ok; eassumption.
  - eapply variable_ok; eassumption.
  - eapply block_ok; eassumption.
  - eapply not_ok; eassumption.
  - eapply minus_ok; eassumption.
  - eapply operator_ok; eassumption.
  - eapply list_ok; eassumption.
  - eapply tuple_ok; eassumption.
  - eapply index_ok; eassumption.
  - eapply field_ok; eassumption.
  - eapply update_ok; eassumption.
  - eapply fn_ok; eassumption.
  - eapply call_ok; eassumption.
  - eapply pipeline_ok; eassumption.
  - eapply failure_ok; eassumption.
  - eapply case_ok; eassumption.
Qed.

Lemma all_hold : forall n, E_at n /\ T_at n /\ L_at n /\ S_at n /\ B_at n /\ R_at n /\ A_at n.
Proof.
  induction n as [|n (IE & IT & IL & IS & IB & IR & IA)].
  - repeat split; red; intros;
      match goal with H : _ = Some _ |- _ => discriminate H end.
  - assert (E := expression_step n IE IL IS IB IR IA). assert (IM := maybe_holds _ _ _ _ _ _ _ n IE).
    repeat apply conj; [exact E|exact (branch_body_step n E IB)|apply list_step; assumption|apply steps_step; assumption|apply body_step; assumption
      |apply branches_step; assumption|apply call_step, IB].
Qed.
(** Calls of functions of the program. *)
Theorem calls_hold n h eh f vs ts r : Forall2 vrel vs ts -> represents_past h eh -> applied n h (DFunction f (N.of_nat (length vs))) vs = Some r ->
  exists eh', represents_past (fst r) eh' /\
  match snd r with
  | inl v => exists u, vrel v u /\ calls_to forms eworld eh (exported_name f) ts (eh', inl u)
  | inr f' => exists u, reports vrel (unescaped path) module f' u /\ calls_to forms eworld eh (exported_name f) ts (eh', inr u)
  end.
Proof.
  intros R P V. destruct (all_hold n) as (_ & _ & _ & _ & _ & _ & IA).
  destruct (IA h eh _ _ vs ts r (v_function _ _ _ f (N.of_nat (length vs))) R P V) as (eh' & P' & X). exists eh'. split; [exact P'|].
  rewrite (rels_length _ _ _ R) in X. exact X.
Qed.
End Sim.
