(** The code that is generated does what the code of the program does: bodies, calls, and all. *)
From Coq Require Import String NArith ZArith List Bool Lia Permutation ZifyBool ZifyN ZifyNat.
From Verif Require Import Text TextProofs Strings StringsSpec StringsProofs Erl ErlangSource ErlangSourceSpec ErlangTypes
  ErlangCode ErlangRun ErlangRunProofs ErlangCodeSpec ErlangCodeTree ErlangCodeCalls ErlangCodeNames ErlangCodeState ErlangCodeRel ErlangCodeEnv
  ErlangCodeSim ErlangCodeSimExpr ErlangCodeSimLet ErlangCodeSimCase.
Import ListNotations.
Local Open Scope nat_scope.
Local Open Scope list_scope.

Lemma always_match p : always_matches p = true -> forall v, matches p v <> Some None.
Proof.
  pattern p. apply pattern_rect'; clear p; intros; try discriminate.
  - cbn [always_matches matches] in *. specialize (H H0 v). destruct (matches p v) as [[b|]|]; [discriminate|congruence|discriminate].
  - cbn [always_matches matches] in *. destruct v; try discriminate. revert elements. induction H as [|p ps P _ IH]; intros [|v vs]; cbn [all_match]; try discriminate.
    cbn [forallb] in H0. apply andb_true_iff in H0. destruct H0 as [H1 H2]. specialize (P H1 v). destruct (matches p v) as [[b|]|]; [|congruence|discriminate].
    specialize (IH H2 vs). destruct (all_match matches ps vs) as [[b'|]|]; [discriminate|congruence|discriminate].
Qed.
Lemma pattern_places p : pattern_location p = pattern_span p.
Proof. reflexivity. Qed.
Lemma default_messages k : unescaped (default_error_message k) = default_message k.
Proof. destruct k; vm_compute; reflexivity. Qed.

Section Sim.
Context (module path : text) (lines : N -> N) (forms : list form) (eworld : history -> text -> text -> list term -> option term)
  (functions : list function) (gworld : past -> foreign -> list value -> option value).
Notation ctx fn := (Context module path fn lines).
Notation vrel := (vrel module path lines).
Notation env_ok := (env_ok module path lines).
Notation legal := (legal module).
Notation legal_body := (legal_body legal).
Notation legal_steps := (legal_steps legal).
Notation legal_call := (legal_call legal).
Notation tex fn := (t_expression (ctx fn)).
Notation value_of := (value_of module lines functions gworld).
Notation values_of := (values_of module lines functions gworld).
Notation value_of_steps := (value_of_steps module lines functions gworld).
Notation value_of_body := (value_of_body module lines functions gworld).
Notation value_of_branches := (value_of_branches module lines functions gworld).
Notation applied := (applied module lines functions gworld).
Notation runs := (runs forms eworld).
Notation list_runs := (list_runs forms eworld).
Notation body_runs := (body_runs forms eworld).
Notation args_run := (args_run forms eworld).
Notation clauses_run := (clauses_run forms eworld).
Notation call_runs := (call_runs forms eworld).
Notation sound := (sound module path lines).
Notation sounds := (sounds module path lines).
Notation E_at := (E_at module path lines forms eworld functions gworld).
Notation M_at := (M_at module path lines forms eworld functions gworld).
Notation T_at := (T_at module path lines forms eworld functions gworld).
Notation L_at := (L_at module path lines forms eworld functions gworld).
Notation S_at := (S_at module path lines forms eworld functions gworld).
Notation B_at := (B_at module path lines forms eworld functions gworld).
Notation R_at := (R_at module path lines forms eworld functions gworld).
Notation A_at := (A_at module path lines forms eworld functions gworld).
Notation reports_ := (reports vrel (unescaped path) module).

Context (PM : unescaped module = module).

(** ** One after another *)

Lemma sound_then used s s1 s' m eenv eh eh1 t b l r : at_start used s s1 -> at_start used s1 s' -> news s s1 b -> runs eenv eh (meaning m) (eh1, inl (t, b)) ->
  sound s1 s' (body_runs (b ++ eenv) eh1 (map meaning l)) r -> sound s s' (body_runs eenv eh (map meaning (m :: l))) r.
Proof.
  intros A1 A2 N R S. eapply sound_after; [exact A1|exact A2|exact N|exact S|]. intros q Q. cbn [map]. eapply body_cons; [exact R|eapply body_not_nil, Q|exact Q].
Qed.
Lemma sound_stops s s' m eenv eh h1 eh1 f t l : represents_past h1 eh1 -> reports_ f t -> runs eenv eh (meaning m) (eh1, inr t) ->
  sound s s' (body_runs eenv eh (map meaning (m :: l))) (h1, inr f).
Proof.
  intros P RT R. eapply sound_fail; [exact P|exact RT|]. cbn [map]. destruct (map meaning l) eqn:E; [apply body_one, R|apply body_head; [exact R|discriminate]].
Qed.

(** ** Steps *)

Section Step.
Context (n : nat) (IE : E_at n) (IM : M_at n) (IL : L_at n) (IS : S_at n) (IB : B_at n) (IR : R_at n).

Lemma steps_step : S_at (S n).
Proof.
  intros fn l last used vars genv eenv s ns s1 ls s' h eh r U K L P T TL V. destruct l as [|[[x at_] e] l].
  - cbn [map_m] in T. run T. cbn [app ErlangCodeSpec.value_of_steps] in *. exact (IE _ _ _ _ _ _ _ _ _ _ _ _ U K L P TL V).
  - destruct L as (L1 & F & L2). cbn [map_m] in T. apply bind_some in T. destruct T as (m & s2 & E & T). apply bind_some in T. destruct T as (ms & s2' & E0 & T). apply ret_some in T. destruct T as [<- ->]. cbn [ErlangCodeSpec.value_of_steps] in V. apply next_some in V. destruct V as (h1 & q & V1 & V).
    destruct (bind_step _ _ _ _ _ _ _ n IM fn used vars genv eenv s h eh U K P x at_ e m s2 _ L1 F E V1) as (A1 & X). cbn [fst snd] in X. cbn [app]. destruct q as [v|f].
    + destruct X as (eh1 & t & b & P1 & VR & N & R & K1).
      assert (A2 : at_start used s2 s').
      { destruct K1 as (I1 & R1 & _). destruct (steps_go (ctx fn) module last (expression_goes _ _ last) l) with (used := at_ :: used) (vars := (x, at_) :: vars) as [d D]; auto.
        { rewrite Forall_forall. intros. apply expression_goes. }
        destruct (D s2 R1) as (ns' & s3 & ls' & s4 & E1 & E2 & MV). rewrite E0 in E1. injection E1 as <- <-. rewrite TL in E2. injection E2 as <- <-.
        eapply start_less; [|eapply moves_start, MV]. apply incl_tl, incl_refl. }
      eapply sound_then; [exact A1|exact A2|exact N|exact R|]. exact (IS _ _ _ _ _ _ _ _ _ _ _ _ _ _ _ U K1 L2 P1 E0 TL V).
    + destruct X as (eh1 & t & P1 & RT & R). subst r. eapply sound_stops; eassumption.
Qed.

Section Expression.
Context (fn : text) (used : list span) (vars : scope) (genv : variables) (eenv : env) (s : state) (h : past) (eh : history)
  (U : unescaped fn = fn) (K : env_ok used vars s genv eenv) (P : represents_past h eh).
Notation goal s' ns r := (sound s s' (body_runs eenv eh (map meaning ns)) r).

Lemma update_ok x e l f args ns s' r : legal used vars (RecordUpdate x e l f args) -> tex fn (RecordUpdate x e l f args) s = Some (ns, s') ->
  value_of (S n) fn genv h (RecordUpdate x e l f args) = Some r -> goal s' ns r.
Proof.
  intros L T V. cbn [t_expression t_expression_] in T. cbn [ErlangCodeSpec.value_of] in V. destruct x as [x|].
  - destruct L as (L1 & F & L2). apply bind_some in T. destruct T as (m & s1 & E & T). apply bind_some in T. destruct T as (m2 & s1' & E0 & T). apply ret_some in T. destruct T as [<- ->]. apply next_some in V. destruct V as (h1 & q & V1 & V).
    destruct (bind_step _ _ _ _ _ _ _ n IM fn used vars genv eenv s h eh U K P x l e m s1 _ L1 F E V1) as (A1 & X). cbn [fst snd] in X. destruct q as [v|f0].
    + destruct X as (eh1 & t & b & P1 & VR & N & R & K1).
      assert (TC : tex fn (Call f args) s1 = Some ([m2], s')) by (cbn [t_expression t_expression_]; erewrite bind_eq by exact E0; reflexivity).
      change (legal (l :: used) ((x, l) :: vars) (Call f args)) in L2.
      assert (A2 := expr_start _ _ _ _ _ _ _ _ _ _ _ _ K1 L2 TC). apply (start_less _ used) in A2; [|apply incl_tl, incl_refl].
      eapply sound_then; [exact A1|exact A2|exact N|exact R|]. exact (IE _ _ _ _ _ _ _ _ _ _ _ _ U K1 L2 P1 TC V).
    + destruct X as (eh1 & t & P1 & RT & R). subst r. eapply sound_stops; eassumption.
  - change (legal used vars (Call f args)) in L. apply bind_some in T. destruct T as (m & s1' & E & T). apply ret_some in T. destruct T as [<- ->].
    assert (TC : tex fn (Call f args) s = Some ([m], s')) by (cbn [t_expression t_expression_]; erewrite bind_eq by exact E; reflexivity).
    exact (IE _ _ _ _ _ _ _ _ _ _ _ _ U K L P TC V).
Qed.
Lemma fn_ok args body i ns s' r : legal used vars (Fn args body i) -> tex fn (Fn args body i) s = Some (ns, s') ->
  value_of (S n) fn genv h (Fn args body i) = Some r -> goal s' ns r.
Proof.
  intros (F & NE & L) T V. injection V as <-. cbn [t_expression t_expression_] in T. erewrite bind_eq in T by reflexivity.
  erewrite bind_eq in T by (apply arguments_ok; apply F). apply bind_some in T. destruct T as (inner & s1 & E & T). erewrite bind_eq in T by reflexivity. apply ret_some in T. destruct T as [<- <-].
  destruct K as (I1 & R1 & KV & KA). apply sound_one. eapply sound_now; [exact P| |apply runs_fun]. eapply v_closure; eassumption.
Qed.
Lemma pipeline_ok l last ns s' r : legal used vars (Pipeline l last) -> tex fn (Pipeline l last) s = Some (ns, s') ->
  value_of (S n) fn genv h (Pipeline l last) = Some r -> goal s' ns r.
Proof.
  intros L T V. change (legal_steps last used vars l) in L. cbn [t_expression t_expression_] in T. run T. cbn [ErlangCodeSpec.value_of] in V.
  exact (IS _ _ _ _ _ _ _ _ _ _ _ _ _ _ _ U K L P E E0 V).
Qed.
Lemma block_ok l ns s' r : legal used vars (Block l) -> tex fn (Block l) s = Some (ns, s') ->
  value_of (S n) fn genv h (Block l) = Some r -> goal s' ns r.
Proof.
  intros [NE L] T V. cbn [t_expression t_expression_] in T. cbn [ErlangCodeSpec.value_of] in V.
  assert (G : forall inner, t_body (ctx fn) (tex fn) l s = Some (inner, s') -> sound s s' (body_runs eenv eh (map meaning inner)) r).
  { intros inner TB. exact (IB _ _ _ _ _ _ _ _ _ _ _ _ U K L NE P TB V). }
  assert (D : (do inner <- t_body (ctx fn) (tex fn) l; ret [NBlock inner]) s = Some (ns, s') -> goal s' ns r).
  { intro D. run D. apply sound_one. eapply sound_impl; [|apply G, E]. intros q Q. apply runs_block, Q. }
  destruct l as [|[e|p e|p e ee m loc] [|]]; try (apply D, T). apply bind_some in T. destruct T as (m & s1 & E & T). apply ret_some in T. destruct T as [<- ->].
  unfold t_maybe in E. apply bind_some in E. destruct E as (inner & s1 & E & T). apply ret_some in T. destruct T as [<- ->]. apply sound_one.
  eapply sound_impl; [intros q Q; apply wrapped, Q|]. apply G. cbn [t_body]. erewrite bind_eq by exact E. unfold bind, ret. rewrite app_nil_r. reflexivity.
Qed.
(** Messages. *)
Lemma message_runs k m nm s' r0 : match m with Some m => legal used vars m | None => True end -> t_message (tex fn) k m s = Some (nm, s') ->
  match m with Some e => value_of n fn genv h e | None => gives h (DString (default_message k)) end = Some r0 ->
  sound s s' (runs eenv eh (meaning nm)) r0.
Proof.
  intros L T V. destruct m as [e|]; cbn [t_message] in T.
  - exact (IM _ _ _ _ _ _ _ _ _ _ _ _ U K L P T V).
  - run T. injection V as <-. eapply sound_now; [exact P|apply v_string|]. assert (X := string_pure forms eworld eenv (default_error_message k) eh). rewrite default_messages in X. exact X.
Qed.
Lemma failure_ok k location m ns s' r : legal used vars (Failure k location m) -> tex fn (Failure k location m) s = Some (ns, s') ->
  value_of (S n) fn genv h (Failure k location m) = Some r -> goal s' ns r.
Proof.
  intros L T V. cbn [t_expression t_expression_] in T. run T. rename r0 into nm. cbn [ErlangCodeSpec.value_of] in V. apply next_some in V. destruct V as (h1 & q & V1 & V).
  assert (LM : match m with Some m => legal used vars m | None => True end) by exact L.
  destruct (message_runs k m nm _ _ LM E V1) as (eh1 & P1 & X). cbn [fst snd] in *. apply sound_one. destruct q as [v|f].
  - destruct X as (t & b & VR & N & R). injection V as <-. eapply sound_fail; [exact P1| |].
    2:{ exact (error_runs module path lines forms eworld eenv fn U PM k location nm [] [] _ _ _ _ R (Forall2_nil _)). }
    exists t, []. split; [exact VR|]. split; [reflexivity|]. destruct k; reflexivity.
  - destruct X as (t & RT & R). subst r. eapply sound_fail; [exact P1|exact RT|]. exact (error_fails module path lines forms eworld eenv fn k location nm [] _ _ _ R).
Qed.
Lemma case_ok l clauses ns s' r : legal used vars (Case l clauses) -> tex fn (Case l clauses) s = Some (ns, s') ->
  value_of (S n) fn genv h (Case l clauses) = Some r -> goal s' ns r.
Proof.
  intros (L1 & _ & L2) T V. change (each (legal used vars) l) in L1. cbn [t_expression t_expression_] in T. run T. unfold t_case in E. apply bind_some in E. destruct E as (ms & s1 & E0 & E). apply bind_some in E. destruct E as (nodes & s1' & E1 & E). apply ret_some in E. destruct E as [<- ->].
  cbn [ErlangCodeSpec.value_of] in V. apply next_some in V. destruct V as (h1 & q & V1 & V). apply sound_one. rewrite case_meaning.
  assert (X : exists nl, map_m (t_maybe (tex fn)) l s = Some (nl, s1) /\
    (forall eh1 t, args_run eenv eh (map meaning nl) (eh1, inr t) -> runs eenv eh (meaning ms) (eh1, inr t)) /\
    (forall eh1 ts b, args_run eenv eh (map meaning nl) (eh1, inl (ts, b)) -> runs eenv eh (meaning ms) (eh1, inl (subject ts, b)))).
  { assert (D : (do inner <- map_m (t_maybe (tex fn)) l; ret (NTuple inner)) s = Some (ms, s1) -> length l <> 1 -> exists nl, map_m (t_maybe (tex fn)) l s = Some (nl, s1) /\
      (forall eh1 t, args_run eenv eh (map meaning nl) (eh1, inr t) -> runs eenv eh (meaning ms) (eh1, inr t)) /\
      (forall eh1 ts b, args_run eenv eh (map meaning nl) (eh1, inl (ts, b)) -> runs eenv eh (meaning ms) (eh1, inl (subject ts, b)))).
    { intros D LN. run D. exists r0. split; [exact E|]. cbn [meaning]. apply map_m_length in E. split.
      - intros eh1 t R. apply args_list in R. exact (runs_tuple _ _ _ _ _ _ R).
      - intros eh1 ts b R. assert (LT := args_length _ _ _ _ _ _ _ _ R). rewrite map_length in LT. apply args_list in R. assert (X := runs_tuple _ _ _ _ _ _ R). unfold lift in X. cbn [fst snd] in X.
        destruct ts as [|t [|]]; [exact X|cbn in LT; lia|exact X]. }
    destruct l as [|e [|e2 l]]; [apply D; [exact E0|discriminate]| |apply D; [exact E0|discriminate]].
    exists [ms]. split; [|split].
    - cbn [map_m]. erewrite bind_eq by exact E0. reflexivity.
    - intros eh1 t R. apply args_one in R. destruct R as ([h2 [[v b]|t']] & R & Q); [discriminate|]. injection Q as -> ->. exact R.
    - intros eh1 ts b R. apply args_one in R. destruct R as ([h2 [[v b']|t']] & R & Q); [|discriminate]. injection Q as -> -> ->. exact R. }
  destruct X as (nl & TL & XF & XS). assert (A1 := maybes_start _ _ _ _ _ _ _ _ _ _ _ _ K L1 TL).
  destruct (IL _ _ _ _ _ _ _ _ _ _ _ _ U K L1 P TL V1) as (eh1 & P1 & X). cbn [fst snd] in P1, X. destruct q as [vs|f].
  - destruct X as (ts & b & VR & N & R). assert (K1 := env_extended _ _ _ _ _ _ _ _ _ _ K A1 N).
    assert (LV : length vs = length l).
    { rewrite (rels_length _ _ _ VR), (args_length _ _ _ _ _ _ _ _ R), map_length. eapply map_m_length, TL. }
    assert (I1 := proj1 K1). assert (R1 := proj1 (proj2 K1)).
    destruct (clauses_go (ctx fn) module used vars (length l) clauses) as [d D]; auto.
    { rewrite Forall_forall. intros cl _. split; [apply expression_goes|]. intros. apply all_stmts. }
    destruct (D s1 R1) as (nodes' & s2 & E2 & MV & BR). rewrite E1 in E2. injection E2 as <- <-. rewrite <- LV in BR.
    eapply sound_after; [exact A1|eapply moves_start, MV|exact N|exact (IR _ _ _ _ _ _ _ _ _ _ _ _ _ _ U K1 VR P1 BR V)|].
    intros q Q. eapply runs_case; [apply XS, R|exact Q].
  - destruct X as (t & RT & R). subst r. eapply sound_fail; [exact P1|exact RT|]. apply runs_case_fails, XF, R.
Qed.
End Expression.
End Step.
End Sim.
