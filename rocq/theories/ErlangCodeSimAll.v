(** The code that is generated does what the code of the program does: bodies, calls, and all. *)
From Coq Require Import String NArith ZArith List Bool Lia Permutation ZifyBool ZifyN ZifyNat.
From Verif Require Import Text TextProofs Strings StringsSpec StringsProofs Erl ErlangSource ErlangSourceSpec ErlangTypes
  ErlangCode ErlangRun ErlangRunProofs ErlangCodeSpec ErlangCodeTree ErlangCodeCalls ErlangCodeNames ErlangCodeState ErlangCodeRel ErlangCodeEnv
  ErlangCodeSim ErlangCodeSimExpr ErlangCodeSimLet ErlangCodeSimCase ErlangCodeSimBody.
Import ListNotations.
Local Open Scope nat_scope.
Local Open Scope list_scope.

Section Sim.
Context (module path : text) (lines : N -> N) (forms : list form) (eworld : history -> text -> text -> list term -> option term)
  (functions : list function) (gworld : past -> foreign -> list value -> option value).
Notation ctx fn := (Context module path fn lines).
Notation vrel := (vrel module path lines).
Notation env_ok := (env_ok module path lines).
Notation legal := (legal module).
Notation legal_body := (legal_body legal).
Notation legal_steps := (legal_steps legal).
Notation legal_call := (legal_call legal).
Notation tex fn := (t_expression (ctx fn)).
Notation value_of := (value_of module lines functions gworld).
Notation values_of := (values_of module lines functions gworld).
Notation value_of_steps := (value_of_steps module lines functions gworld).
Notation value_of_body := (value_of_body module lines functions gworld).
Notation value_of_branches := (value_of_branches module lines functions gworld).
Notation applied := (applied module lines functions gworld).
Notation runs := (runs forms eworld).
Notation list_runs := (list_runs forms eworld).
Notation body_runs := (body_runs forms eworld).
Notation args_run := (args_run forms eworld).
Notation clauses_run := (clauses_run forms eworld).
Notation call_runs := (call_runs forms eworld).
Notation sound := (sound module path lines).
Notation sounds := (sounds module path lines).
Notation E_at := (E_at module path lines forms eworld functions gworld).
Notation M_at := (M_at module path lines forms eworld functions gworld).
Notation T_at := (T_at module path lines forms eworld functions gworld).
Notation L_at := (L_at module path lines forms eworld functions gworld).
Notation S_at := (S_at module path lines forms eworld functions gworld).
Notation B_at := (B_at module path lines forms eworld functions gworld).
Notation R_at := (R_at module path lines forms eworld functions gworld).
Notation A_at := (A_at module path lines forms eworld functions gworld).
Notation reports_ := (reports vrel (unescaped path) module).

Context (PM : unescaped module = module).

(** ** Statements *)

Section Body.
Context (n : nat) (IE : E_at n) (IM : M_at n) (IB : B_at n).

(** [let], and what follows. *)
Lemma let_body fn p e l used vars genv eenv s ns s' h eh r (U : unescaped fn = fn) (K : env_ok used vars s genv eenv) (P : represents_past h eh) :
  legal (map snd (bound_by p) ++ used) vars e -> legal_pattern p -> prefixes p = [] -> fresh used (bound_by p) ->
  legal_body (map snd (bound_by p) ++ used) (bound_by p ++ vars) l ->
  (do first <- t_let (tex fn) e p; do rest <- t_body (ctx fn) (tex fn) l; ret (first :: rest)) s = Some (ns, s') ->
  (forall q, value_of n fn genv h e = Some q ->
     match q with
     | (h1, inl v) => exists gb, matches p v = Some (Some gb) /\ match l with [] => gives h1 v | _ :: _ => value_of_body n fn (gb ++ genv) h1 l end = Some r
     | (h1, inr f) => r = (h1, inr f)
     end) -> value_of n fn genv h e <> None ->
  sound s s' (body_runs eenv eh (map meaning ns)) r.
Proof.
  intros L1 LP NP F LB T V NV. apply bind_some in T. destruct T as (m & s1 & E & T). apply bind_some in T. destruct T as (rest & s2 & E0 & T). apply ret_some in T. destruct T as [<- ->].
  destruct (value_of n fn genv h e) as [[h1 q]|] eqn:V1; [|contradiction]. specialize (V _ eq_refl).
  destruct (let_step _ _ _ _ _ _ _ n IM fn used vars genv eenv s h eh U K P p e m s1 _ L1 LP NP F E V1) as (A1 & X). cbn [fst snd] in X. destruct q as [v|f].
  - destruct V as (gb & M & V). destruct (X gb M) as (eh1 & t & b & P1 & VR & N & R & K1). destruct l as [|st l].
    + cbn [t_body] in E0. apply ret_some in E0. destruct E0 as [<- ->]. injection V as <-. eapply sound_value; [exact P1|exact VR|exact N|]. apply body_one, R.
    + set (l1 := st :: l) in *. assert (A2 := body_start _ _ _ _ _ _ _ _ _ _ _ _ K1 LB E0). apply (start_less _ used) in A2; [|apply incl_appr, incl_refl].
      eapply sound_then; [exact A1|exact A2|exact N|exact R|]. eapply IB; try eassumption. discriminate.
  - subst r. destruct X as (eh1 & t & P1 & RT & R). eapply sound_stops; eassumption.
Qed.

Lemma gen_plain k : gen k <> str "_".
Proof. apply gen_not_discard. Qed.

Section Assert.
Context (fn : text) (p : pattern) (e : expr) (e_end : N) (msg : option expr) (location : span) (used : list span) (vars : scope) (genv : variables) (eenv : env) (s : state)
  (h : past) (eh : history) (U : unescaped fn = fn) (K : env_ok used vars s genv eenv) (P : represents_past h eh).
Notation new := (bound_by p).
Context (LM : match msg with Some m => legal used vars m | None => True end) (LP : legal_pattern p) (F : fresh used new).
(** When the value does not match. *)
Lemma assert_fails s1 b eh1 h1 v t s3 nm s' h2 q (r : past * (value + failure)) : at_start used s s1 -> news s s1 b -> represents_past h1 eh1 -> vrel v t -> at_start used s1 s3 ->
  t_message (tex fn) LetAssert msg (State (taken_names s3) (variable_names s3) (generated_variables s3 + 1)) = Some (nm, s') ->
  match msg with Some e => value_of n fn genv h1 e | None => gives h1 (DString (default_message LetAssert)) end = Some (h2, q) ->
  match q with
  | inl m => r = (h2, inr (Failed LetAssert m fn (lines (fst location)) (Some (v, (fst location, e_end), pattern_span p))))
  | inr f => r = (h2, inr f)
  end ->
  exists eh2 u f, r = (h2, inr f) /\ represents_past h2 eh2 /\ reports_ f u /\
    clauses_run (b ++ eenv) eh1 t (map clause_meaning [failure_clause (ctx fn) p e_end location (gen (generated_variables s3)) nm]) (eh2, inr u).
Proof.
  intros A1 N P1 VR A3 TM VM Q. set (x := gen (generated_variables s3)). set (s4 := State (taken_names s3) (variable_names s3) (generated_variables s3 + 1)) in *.
  assert (A13 := start_trans _ _ _ _ A1 A3). assert (A4 := start_trans _ _ _ _ A13 (generated_start used s3)). fold s4 in A4.
  assert (NX : news s s4 ((x, t) :: b)).
  { apply (news_app _ _ b [(x, t)]); [|exact (generated_new used s s3 x t A13 eq_refl)]. eapply news_later; [|exact N]. eapply start_trans; [exact A3|apply generated_start]. }
  assert (K4 := env_extended _ _ _ _ _ _ _ _ _ _ K A4 NX). cbn [app] in K4.
  assert (K1 := env_extended _ _ _ _ _ _ _ _ _ _ K A1 N). assert (K3 := env_later _ _ _ _ _ _ _ _ _ K1 A3).
  assert (LX : lookup x (b ++ eenv) = None) by (exact (env_unbound _ _ _ _ _ _ _ _ x K3 (gen_fresh s3))).
  assert (MX : match_ (meaning (NVar x)) t (b ++ eenv) = Matches [(x, t)]).
  { cbn [meaning match_]. destruct (text_eqb x (str "_")) eqn:E; [apply text_eqb_eq in E; exfalso; eapply gen_plain, E|]. rewrite LX. reflexivity. }
  destruct (message_runs _ _ _ _ _ _ _ n IM fn used vars genv _ s4 h1 eh1 U K4 P1 LetAssert msg nm s' _ LM TM VM) as (eh2 & P2 & X). cbn [fst snd] in P2, X.
  destruct q as [m|f].
  - destruct X as (tm & bm & VM' & NM & RM).
    assert (RE := error_runs module path lines forms eworld ((x, t) :: b ++ eenv) fn U PM LetAssert location nm
      [(str "value", NVar x); (str "start", NInt (Z.of_N (fst location))); (str "end", NInt (Z.of_N e_end)); (str "pattern_start", NInt (Z.of_N (fst (pattern_location p))));
       (str "pattern_end", NInt (Z.of_N (snd (pattern_location p))))]
      [t; VInt (Z.of_N (fst location)); VInt (Z.of_N e_end); VInt (Z.of_N (fst (pattern_location p))); VInt (Z.of_N (snd (pattern_location p)))] _ _ _ _ RM).
    eexists eh2, _, _. split; [exact Q|]. split; [exact P2|]. split; [|].
    2:{ exact (clause_chosen _ _ _ _ _ _ _ _ _ _ MX (body_one _ _ _ _ _ _ (RE ltac:(repeat (constructor; [first [intro; apply runs_var; cbn [lookup]; rewrite text_eqb_refl; reflexivity|apply nat_pure]|]); constructor)))). }
    change (pattern_location p) with (pattern_span p). destruct (pattern_span p) as [p1 p2] eqn:EP. exists tm. eexists. split; [exact VM'|]. split; [|reflexivity].
    exists t. split; [exact VR|reflexivity].
  - destruct X as (u & RU & RS). exists eh2, u, f. split; [exact Q|]. split; [exact P2|]. split; [exact RU|].
    exact (clause_chosen _ _ _ _ _ _ _ _ _ _ MX (body_one _ _ _ _ _ _ (error_fails module path lines forms eworld ((x, t) :: b ++ eenv) fn LetAssert location nm
      [(str "value", NVar x); (str "start", NInt (Z.of_N (fst location))); (str "end", NInt (Z.of_N e_end)); (str "pattern_start", NInt (Z.of_N (fst (pattern_location p))));
       (str "pattern_end", NInt (Z.of_N (snd (pattern_location p))))] _ _ _ RS))).
Qed.
Context (L1 : legal (map snd new ++ used) vars e).
Lemma direct_one : flat_map direct [p] = direct p.
Proof. apply app_nil_r. Qed.
Lemma prefixes_one : backwards prefixes [p] = prefixes p.
Proof. apply app_nil_r. Qed.
Lemma bound_one : flat_map bound_by [p] = new.
Proof. apply app_nil_r. Qed.
Lemma good_one : good_row [p].
Proof. unfold good_row. rewrite bound_one. repeat split; [apply F|rewrite Forall_forall; intros x X; exact (fresh_legal _ _ _ F X)|exact LP]. Qed.
Lemma direct_fresh s1 eenv1 x : env_ok used vars s1 genv eenv1 -> In x (map fst (flat_map direct [p])) -> lookup (rho s1 x) eenv1 = None.
Proof.
  intros K1 X. rewrite direct_one in X. eapply env_unbound; [exact K1|]. apply rho_fresh. apply (fresh_legal _ _ _ F). apply names_split. auto.
Qed.

(** When the value matches, and more follows. *)
Lemma assert_goes_on s1 eenv1 v t gb h1 eh1 l nb s3 r more : env_ok used vars s1 genv eenv1 -> represents_past h1 eh1 -> vrel v t -> matches p v = Some (Some gb) ->
  l <> [] -> legal_body (map snd new ++ used) (new ++ vars) l -> t_body (ctx fn) (tex fn) l (after_pattern (direct p) (prefixes p) s1) = Some (nb, s3) ->
  value_of_body n fn (gb ++ genv) h1 l = Some r ->
  sound s1 s3 (clauses_run eenv1 eh1 t (map clause_meaning ((p_node (rho s1) p, (None, prefix_nodes (rho (alloc (direct p) s1)) (sorted_by_name (prefixes p)) ++ nb)) :: more))) r.
Proof.
  intros K1 P1 VR M NE LB TB V. assert (FB : fresh used (flat_map bound_by [p])) by (rewrite bound_one; exact F).
  assert (MR : all_match matches [p] [v] = Some (Some ([] ++ gb))) by (cbn [all_match]; rewrite M; reflexivity). cbn [app] in MR.
  destruct (head_matches module path lines (rho s1) (rho_inj s1) (rho_plain s1) [p] [v] [t] eenv1 (Some gb) (Forall2_cons _ _ VR (Forall2_nil _)) eq_refl good_one
    (fun x => direct_fresh s1 eenv1 x K1) MR) as (m & HM & B).
  assert (PL : forall x l, In (x, l) (flat_map bound_by [p]) -> place (after_patterns [p] s1) l = Some (rho s1 x)).
  { intros x l0 X. eapply place_after; [apply bound_split_all|apply FB|apply FB|exact X]. }
  assert (KB := branch_env module path lines eworld used vars genv eenv1 s1 K1 [p] _ FB FB (fun x => iff_refl _) PL gb m B).
  assert (EA : after_patterns [p] s1 = after_pattern (direct p) (prefixes p) s1) by (unfold after_patterns; rewrite direct_one, prefixes_one; reflexivity).
  rewrite bound_one in KB. rewrite <- EA in TB. assert (S := IB _ _ _ _ _ _ _ _ _ _ _ _ U KB LB NE P1 TB V).
  assert (AB := body_start _ _ _ _ _ _ _ _ _ _ _ _ KB LB TB). apply (start_less _ used) in AB; [|apply incl_appr, incl_refl].
  refine (branch_sound module path lines forms eworld used vars genv eenv1 s1 K1 [p] _ FB (fun x => iff_refl _) PL gb m B eh1 nb s3 r _ AB S _).
  rewrite direct_one, prefixes_one. intros q Q. cbn [map]. cbn [row_node subject] in HM. exact (clause_chosen _ _ _ _ _ _ _ _ _ _ HM Q).
Qed.
(** When the value matches, and nothing follows. *)
Lemma assert_ends s1 eenv1 v t gb h1 eh1 more : env_ok used vars s1 genv eenv1 -> represents_past h1 eh1 -> vrel v t -> matches p v = Some (Some gb) ->
  let x := gen (generated_variables s1) in
  let s2 := State (taken_names s1) (variable_names s1) (generated_variables s1 + 1) in
  sound s1 (alloc (direct p) s2) (clauses_run eenv1 eh1 t (map clause_meaning ((NMatch (p_node (rho s2) p) (NVar x), (None, [NVar x])) :: more))) (h1, inl v).
Proof.
  intros K1 P1 VR M x s2. change (rho s2) with (rho s1). assert (FB : fresh used (flat_map bound_by [p])) by (rewrite bound_one; exact F).
  assert (G := proj1 (good_cons p [] good_one)).
  assert (FD := fun y Y => direct_fresh s1 eenv1 y K1 (eq_ind_r (fun l => In y (map fst l)) Y direct_one)).
  destruct (all_patterns module path lines (rho s1) (rho_inj s1) (rho_plain s1) p v t eenv1 (Some gb) VR G FD M) as (m & HM & B).
  assert (LD : forall y, In y (map fst (direct p)) -> legal_name y) by (intros y Y; apply (fresh_legal _ _ _ F), names_split; auto).
  assert (NX : ~ In x (map fst m)).
  { intro J. destruct B as (KB & _). destruct (KB _ J) as (z & Z & EZ). unfold x, rho in EZ. symmetry in EZ. revert EZ. apply mk_not_gen, LD, Z. }
  assert (HM2 : match_ (meaning (NMatch (p_node (rho s1) p) (NVar x))) t eenv1 = Matches ([(x, t)] ++ m)).
  { cbn [meaning]. rewrite onto_match. cbn [match_]. rewrite HM. destruct (text_eqb x (str "_")) eqn:E; [apply text_eqb_eq in E; exfalso; eapply gen_plain, E|].
    rewrite lookup_app, (lookup_none _ _ NX), (env_unbound _ _ _ _ _ _ _ _ x K1 (gen_fresh s1)). reflexivity. }
  destruct (fresh_app _ _ _ (fresh_perm _ _ _ (bound_split p) F)) as [FP _].
  eapply sound_value; [exact P1|exact VR| |].
  2:{ refine (clause_chosen _ _ _ _ _ _ _ _ _ (_, inl (_, _)) HM2 (body_one _ _ _ _ _ _ (runs_var _ _ _ _ _ t _))). cbn [app lookup]. rewrite text_eqb_refl. reflexivity. }
  cbn [app]. apply (news_app _ _ m [(x, t)]).
  - apply news_names. intros y Y. destruct B as (KB & _). destruct (KB y Y) as (z & Z & ->). exists z. split; [apply LD, Z|]. split; [reflexivity|].
    change (rho s1 z) with (rho s2 z). apply alloc_allocated; [apply FP|exact Z|apply LD, Z].
  - eapply news_later; [apply (alloc_start used), FP|]. exact (generated_new used s1 s1 x t (start_refl _ _) eq_refl).
Qed.

Lemma assert_ok l ns s' r : always_matches p = false -> legal_body (map snd new ++ used) (new ++ vars) l ->
  t_body (ctx fn) (tex fn) (LetAssert_ p e e_end msg location :: l) s = Some (ns, s') ->
  value_of_body (S n) fn genv h (LetAssert_ p e e_end msg location :: l) = Some r -> sound s s' (body_runs eenv eh (map meaning ns)) r.
Proof.
  intros AM LB T V. cbn [t_body] in T. rewrite AM in T. apply bind_some in T. destruct T as (m & s1 & E & T). apply bind_some in T. destruct T as (cl & s3 & EC & T).
  erewrite bind_eq in T by apply new_generated. apply bind_some in T. destruct T as (nm & s5 & TM & T). apply ret_some in T. destruct T as [<- ->].
  cbn [ErlangCodeSpec.value_of_body] in V. apply next_some in V. destruct V as (h2 & q2 & V0 & V). apply next_some in V0. destruct V0 as (h1 & q & V1 & V2).
  assert (J : incl used (map snd new ++ used)) by (apply incl_appr, incl_refl).
  assert (K0 := env_used _ _ _ _ _ _ _ _ _ J K). assert (A1 := maybe_start _ _ _ _ _ _ _ _ _ _ _ _ K0 L1 E). apply (start_less _ used _ _ J) in A1.
  apply sound_one. rewrite case_meaning.
  destruct (IM _ _ _ _ _ _ _ _ _ _ _ _ U K0 L1 P E V1) as (eh1 & P1 & X). cbn [fst snd] in P1, X. destruct q as [v|f].
  2:{ destruct X as (t & RT & R). injection V2 as -> ->. subst r. eapply sound_fail; [exact P1|exact RT|]. apply runs_case_fails, R. }
  destruct X as (t & b & VR & N & R). assert (K1 := env_extended _ _ _ _ _ _ _ _ _ _ K A1 N).
  destruct (fresh_app _ _ _ (fresh_perm _ _ _ (bound_split p) F)) as [FP _].
  assert (N2 : NoDup (map fst (prefixes p))).
  { rewrite <- bare_names. apply NoDup_app_r with (a := map fst (direct p)). rewrite <- map_app. apply (fresh_perm _ _ _ (bound_split p) F). }
  assert (MS : forall s3 s4, s4 = State (taken_names s3) (variable_names s3) (generated_variables s3 + 1) -> t_message (tex fn) LetAssert msg s4 = Some (nm, s') -> at_start used s1 s3 -> at_start used s3 s').
  { intros s3' s4' ES TM' A'. assert (A4 : at_start used s3' s4') by (rewrite ES; apply generated_start).
    eapply start_trans; [exact A4|]. eapply message_start; [exact (env_later _ _ _ _ _ _ _ _ _ (env_later _ _ _ _ _ _ _ _ _ K1 A') A4)|exact LM|exact TM']. }
  assert (FAIL : forall pat gs body, at_start used s1 s3 -> matches p v = Some None -> match_ (meaning pat) t (b ++ eenv) = Differs -> cl = (pat, (gs, body)) ->
    sound s s' (runs eenv eh (ECase (meaning m) (map clause_meaning [cl; failure_clause (ctx fn) p e_end location (gen (generated_variables s3)) nm]))) r).
  { intros pat gs body A3 M D ->. rewrite M in V2. apply next_some in V2. destruct V2 as (h3 & q & VM & V2).
    assert (Q : match q with
      | inl m => r = (h3, inr (Failed LetAssert m fn (lines (fst location)) (Some (v, (fst location, e_end), pattern_span p))))
      | inr f => r = (h3, inr f)
      end). { destruct q; [injection V2 as <- <-|injection V2 as -> ->]; exact V. }
    destruct (assert_fails s1 b eh1 h1 v t s3 nm s' h3 q r A1 N P1 VR A3 TM VM Q) as (eh2 & u & f & -> & P2 & RU & C).
    eapply sound_fail; [exact P2|exact RU|]. exact (runs_case _ _ _ _ _ _ _ _ _ (eh2, inr u) R (clause_differs _ _ _ _ _ _ _ _ _ _ D C)). }
  destruct l as [|st l].
  - erewrite bind_eq in EC by apply new_generated. erewrite bind_eq in EC by (apply pattern_ok; apply FP). apply ret_some in EC. destruct EC as [<- <-]. cbn [fst snd] in *.
    set (s2 := State (taken_names s1) (variable_names s1) (generated_variables s1 + 1)) in *.
    assert (A3 : at_start used s1 (alloc (direct p) s2)) by (eapply start_trans; [apply generated_start|apply alloc_start, FP]).
    destruct (matches p v) as [[gb|]|] eqn:M; [| |discriminate].
    + injection V2 as <- <-. injection V as <-. eapply sound_after; [exact A1| |exact N| |intros q Q; eapply runs_case; [exact R|exact Q]].
      2:{ eapply sound_states; [apply start_refl| |exact (assert_ends s1 _ v t gb h1 eh1 _ K1 P1 VR M)]. exact (MS _ _ eq_refl TM A3). }
      eapply start_trans; [exact A3|exact (MS _ _ eq_refl TM A3)].
    + eapply FAIL; [exact A3|reflexivity| |reflexivity]. cbn [meaning]. rewrite onto_match. cbn [match_]. change (rho s2) with (rho s1).
      assert (G := proj1 (good_cons p [] good_one)). assert (FD := fun y Y => direct_fresh s1 _ y K1 (eq_ind_r (fun l => In y (map fst l)) Y direct_one)).
      assert (HM := all_patterns module path lines (rho s1) (rho_inj s1) (rho_plain s1) p v t (b ++ eenv) None VR G FD M). cbn in HM. rewrite HM. reflexivity.
  - set (l1 := st :: l) in *. erewrite bind_eq in EC by (apply pattern_ok; apply FP). cbn [fst snd] in EC. rewrite app_nil_r in EC.
    erewrite bind_eq in EC by (apply assignments_ok; exact N2). fold (after_pattern (direct p) (prefixes p) s1) in EC. apply bind_some in EC. destruct EC as (nb & s3' & TB & EC).
    apply ret_some in EC. destruct EC as [<- ->].
    assert (A3 : at_start used s1 s3).
    { assert (AP : at_start used s1 (after_pattern (direct p) (prefixes p) s1)) by (eapply moves_start, moves_after; [apply bound_split|apply F|exact F]).
      destruct (body_goes (ctx fn) module l1 (all_stmts _ _ _ _ l1) (map snd new ++ used) (new ++ vars)) as [d D]; [apply incl_new, K1|exact LB|].
      eapply start_trans; [exact AP|]. eapply start_less; [exact J|]. eapply goes_start; [exact D| |exact TB].
      eapply resolves_after; [apply bound_split|apply F|apply F|exact F|apply K1|apply K1]. }
    destruct (matches p v) as [[gb|]|] eqn:M; [| |discriminate].
    + injection V2 as <- <-. cbn [snd] in V. eapply sound_after; [exact A1| |exact N| |intros q Q; eapply runs_case; [exact R|exact Q]].
      2:{ eapply sound_states; [apply start_refl| |]. 2:{ eapply (assert_goes_on s1); try eassumption. discriminate. } exact (MS _ _ eq_refl TM A3). }
      eapply start_trans; [exact A3|exact (MS _ _ eq_refl TM A3)].
    + eapply FAIL; [exact A3|reflexivity| |reflexivity].
      assert (G := proj1 (good_cons p [] good_one)). assert (FD := fun y Y => direct_fresh s1 _ y K1 (eq_ind_r (fun l => In y (map fst l)) Y direct_one)).
      exact (all_patterns module path lines (rho s1) (rho_inj s1) (rho_plain s1) p v t (b ++ eenv) None VR G FD M).
Unshelve. all: exact used.
Qed.
End Assert.
End Body.
End Sim.
