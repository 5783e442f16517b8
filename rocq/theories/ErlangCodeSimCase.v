(** The code that is generated does what the code of the program does: branches. *)
From Coq Require Import String NArith ZArith List Bool Lia Permutation ZifyBool ZifyN ZifyNat.
From Verif Require Import Text TextProofs Strings StringsSpec StringsProofs Erl ErlangSource ErlangSourceSpec ErlangTypes
  ErlangCode ErlangRun ErlangRunProofs ErlangCodeSpec ErlangCodeTree ErlangCodeCalls ErlangCodeNames ErlangCodeState ErlangCodeRel ErlangCodeEnv
  ErlangCodeSim ErlangCodeSimExpr ErlangCodeSimLet.
Import ListNotations.
Local Open Scope nat_scope.
Local Open Scope list_scope.

Section Sim.
Context (module path : text) (lines : N -> N) (forms : list form) (eworld : history -> text -> text -> list term -> option term)
  (functions : list function) (gworld : past -> foreign -> list value -> option value).
Notation ctx fn := (Context module path fn lines).
Notation vrel := (vrel module path lines).
Notation env_ok := (env_ok module path lines).
Notation legal := (legal module).
Notation legal_body := (legal_body legal).
Notation legal_steps := (legal_steps legal).
Notation legal_call := (legal_call legal).
Notation tex fn := (t_expression (ctx fn)).
Notation value_of := (value_of module lines functions gworld).
Notation values_of := (values_of module lines functions gworld).
Notation value_of_steps := (value_of_steps module lines functions gworld).
Notation value_of_body := (value_of_body module lines functions gworld).
Notation value_of_branches := (value_of_branches module lines functions gworld).
Notation applied := (applied module lines functions gworld).
Notation runs := (runs forms eworld).
Notation list_runs := (list_runs forms eworld).
Notation body_runs := (body_runs forms eworld).
Notation args_run := (args_run forms eworld).
Notation clauses_run := (clauses_run forms eworld).
Notation call_runs := (call_runs forms eworld).
Notation sound := (sound module path lines).
Notation sounds := (sounds module path lines).
Notation E_at := (E_at module path lines forms eworld functions gworld).
Notation M_at := (M_at module path lines forms eworld functions gworld).
Notation T_at := (T_at module path lines forms eworld functions gworld).
Notation L_at := (L_at module path lines forms eworld functions gworld).
Notation S_at := (S_at module path lines forms eworld functions gworld).
Notation B_at := (B_at module path lines forms eworld functions gworld).
Notation R_at := (R_at module path lines forms eworld functions gworld).
Notation A_at := (A_at module path lines forms eworld functions gworld).
Notation reports_ := (reports vrel (unescaped path) module).

(** ** Prefixes that have a name *)

Definition prefix_value (r : text -> text) (e : text * (span * text)) : text * term := (r (fst e), VBinary (unescaped (snd (snd e)))).
Definition prefix_nodes (r : text -> text) (al : aliases) : list node := map (fun e => NMatch (NVar (r (fst e))) (string_node (snd (snd e)))) al.
Lemma assignments_run r : (forall x y, legal_name x -> legal_name y -> r x = r y -> x = y) -> (forall x, legal_name x -> r x <> str "_") ->
  forall al bound h body q, NoDup (map fst al) -> Forall legal_name (map fst al) -> (forall x, In x (map fst al) -> lookup (r x) bound = None) ->
  body_runs (rev (map (prefix_value r) al) ++ bound) h body q ->
  body_runs bound h (map meaning (prefix_nodes r al) ++ body) (lift (fun q => (fst q, snd q ++ rev (map (prefix_value r) al))) q).
Proof.
  intros RI RP. induction al as [|e al IH]; intros bound h body q N L F B.
  - cbn in *. replace (lift _ q) with q; [exact B|]. destruct q as [hq [[v b]|t]]; unfold lift; cbn; [rewrite app_nil_r|]; reflexivity.
  - cbn [map rev] in *. rewrite <- app_assoc in B. inversion N; subst. inversion L; subst.
    assert (NB : map meaning (prefix_nodes r al) ++ body <> []). { apply body_not_nil in B. destruct (map meaning (prefix_nodes r al)); [exact B|discriminate]. }
    assert (R1 : runs bound h (meaning (NMatch (NVar (r (fst e))) (string_node (snd (snd e))))) (h, inl (VBinary (unescaped (snd (snd e))), [prefix_value r e]))).
    { cbn [meaning string_node match_onto]. assert (X := runs_match forms eworld bound h (EVar (r (fst e))) (EBinary (unescaped (snd (snd e)))) h _ [] [prefix_value r e] (runs_binary _ _ _ _ _)).
      apply X. cbn [app match_]. destruct (text_eqb (r (fst e)) (str "_")) eqn:E; [apply text_eqb_eq in E; exfalso; eapply RP; eassumption|].
      rewrite F by (left; reflexivity). reflexivity. }
    assert (IB := IH ([prefix_value r e] ++ bound) h body q H2 H4). 
    replace (lift _ q) with (lift (fun q => (fst q, snd q ++ [prefix_value r e])) (lift (fun q => (fst q, snd q ++ rev (map (prefix_value r) al))) q)).
    + eapply body_cons; [exact R1|exact NB|]. apply IB; [|exact B]. intros x X. cbn [app lookup prefix_value]. destruct (text_eqb (r x) (r (fst e))) eqn:E; [|apply F; right; exact X].
      apply text_eqb_eq, RI in E; [|rewrite Forall_forall in H4; auto|assumption]. subst x. contradiction.
    + rewrite lift_lift. apply lift_ext. intros [v b]. cbn [fst snd]. rewrite app_assoc. reflexivity.
Qed.

(** ** The patterns of a branch *)

Definition row_node (r : text -> text) (ps : list pattern) : node := match ps with [p] => p_node r p | _ => NTuple (map (p_node r) ps) end.
Lemma head_matches r : (forall x y, legal_name x -> legal_name y -> r x = r y -> x = y) -> (forall x, legal_name x -> r x <> str "_") ->
  forall ps vs ts bound gr, Forall2 vrel vs ts -> length ps = length vs -> good_row ps ->
  (forall x, In x (map fst (flat_map direct ps)) -> lookup (r x) bound = None) -> all_match matches ps vs = Some gr ->
  match gr with
  | None => match_ (meaning (row_node r ps)) (subject ts) bound = Differs
  | Some gb => exists l, match_ (meaning (row_node r ps)) (subject ts) bound = Matches l /\ binds module path lines r (flat_map direct ps) (backwards prefixes ps) gb l
  end.
Proof.
  intros RI RP ps vs ts bound gr R LN G F M.
  assert (LT : length ps = length ts) by (rewrite LN; eapply rels_length; exact R).
  assert (X := row_matches _ _ _ r RI ps (proj2 (Forall_forall _ _) (fun p _ => all_patterns _ _ _ r RI RP p)) vs ts bound gr R G F M).
  destruct ps as [|p [|p' ps]].
  - destruct ts; [|discriminate]. cbn [row_node map meaning subject]. rewrite match_tuple. cbn [length Nat.eqb]. destruct gr as [gb|]; [destruct X as (_ & X); exact X|exact (X eq_refl)].
  - destruct ts as [|t [|]]; try discriminate. cbn [row_node subject]. cbn [map row_match] in X. destruct gr as [gb|].
    + destruct X as (_ & l & ML & B). destruct (match_ (meaning (p_node r p)) t bound) as [l1| |]; try discriminate. injection ML as <-. exists l1. split; [reflexivity|exact B].
    + specialize (X eq_refl). destruct (match_ (meaning (p_node r p)) t bound) as [l1| |]; try discriminate. reflexivity.
  - destruct ts as [|t [|t' ts]]; try discriminate. cbn [row_node subject]. cbn [meaning]. rewrite match_tuple. rewrite ! map_length. rewrite LT, Nat.eqb_refl.
    destruct gr as [gb|]; [destruct X as (_ & X); exact X|exact (X LT)].
Qed.
(** ** What follows the patterns *)

Section Branch.
Context (used : list span) (vars : scope) (genv : variables) (eenv : env) (s : state) (K : env_ok used vars s genv eenv)
  (ps : list pattern) (new : scope) (F : fresh used new) (FB : fresh used (flat_map bound_by ps))
  (NA : forall x, In x (map fst new) <-> In x (map fst (flat_map bound_by ps)))
  (PL : forall x l, In (x, l) new -> place (after_patterns ps s) l = Some (rho s x)).
Let PB := bound_split_all ps.
Definition prefix_env : env := rev (map (prefix_value (rho s)) (sorted_by_name (backwards prefixes ps))).

Lemma bound_legal x : In x (map fst (flat_map bound_by ps)) -> legal_name x.
Proof. exact (fresh_legal _ _ _ FB). Qed.
Lemma prefix_names : NoDup (map fst (backwards prefixes ps)).
Proof.
  rewrite <- bare_names. apply NoDup_app_r with (a := map fst (flat_map direct ps)); rewrite <- map_app.
  eapply Permutation_NoDup; [apply Permutation_map, PB|apply FB].
Qed.
Lemma direct_prefix x : In x (map fst (flat_map direct ps)) -> In x (map fst (backwards prefixes ps)) -> False.
Proof.
  intros A B. assert (N : NoDup (map fst (flat_map direct ps ++ bare (backwards prefixes ps)))) by (eapply Permutation_NoDup; [apply Permutation_map, PB|apply FB]).
  rewrite map_app in N. apply (NoDup_app_disjoint _ _ x N A). rewrite bare_names. exact B.
Qed.
Lemma sorted_in e : In e (sorted_by_name (backwards prefixes ps)) <-> In e (backwards prefixes ps).
Proof. assert (P := sorted_permutation _ prefix_names). split; apply Permutation_in; [exact P|symmetry; exact P]. Qed.
Lemma sorted_names x : In x (map fst (sorted_by_name (backwards prefixes ps))) <-> In x (map fst (backwards prefixes ps)).
Proof. rewrite ! in_map_iff. split; intros (e & E & I); exists e; (split; [exact E|]); apply sorted_in; exact I. Qed.
Lemma after_start : at_start used s (after_patterns ps s).
Proof. eapply moves_start, moves_after; [exact PB|apply FB|exact FB]. Qed.
Lemma after_allocated x : In x (map fst (flat_map bound_by ps)) -> allocated (after_patterns ps s) (rho s x).
Proof.
  intro X. left. exists x, (count s x). split; [apply bound_legal, X|]. split; [|reflexivity].
  unfold after_patterns. rewrite (count_after _ _ _ PB); [|apply FB]. rewrite ins_in by exact X. lia.
Qed.
Lemma prefix_key y : In y (map fst prefix_env) -> exists x, In x (map fst (backwards prefixes ps)) /\ y = rho s x.
Proof.
  unfold prefix_env. rewrite map_rev, <- in_rev, map_map. intro Y. apply in_map_iff in Y. destruct Y as (e & <- & I). exists (fst e). split; [|reflexivity].
  apply in_map, sorted_in, I.
Qed.
Lemma prefix_lookup x at_ w : In (x, (at_, w)) (backwards prefixes ps) -> lookup (rho s x) prefix_env = Some (VBinary (unescaped w)).
Proof.
  intro I. apply lookup_pair.
  - unfold prefix_env. rewrite map_rev, map_map. apply NoDup_rev.
    assert (N : NoDup (map fst (sorted_by_name (backwards prefixes ps)))). { eapply Permutation_NoDup; [apply Permutation_map; symmetry; apply sorted_permutation, prefix_names|apply prefix_names]. }
    assert (L : forall x, In x (map fst (sorted_by_name (backwards prefixes ps))) -> legal_name x).
    { intros z Z. apply bound_legal, names_split_all. right. apply sorted_names, Z. }
    clear - N L. induction (sorted_by_name (backwards prefixes ps)) as [|e l IH]; [constructor|]. cbn [map] in *. inversion N; subst. constructor; [|apply IH; [assumption|intros; apply L; right; assumption]].
    intro J. apply in_map_iff in J. destruct J as (e' & E & J). cbn [prefix_value fst] in E. apply rho_inj in E; [|apply L; right; apply in_map, J|apply L; left; reflexivity].
    apply H1. rewrite <- E. apply in_map, J.
  - unfold prefix_env. rewrite <- in_rev. apply in_map_iff. exists (x, (at_, w)). split; [reflexivity|apply sorted_in, I].
Qed.

Context (gb : variables) (l : env) (B : binds module path lines (rho s) (flat_map direct ps) (backwards prefixes ps) gb l).
Lemma branch_news : news s (after_patterns ps s) (prefix_env ++ l).
Proof.
  apply news_names. intros y Y. rewrite map_app, in_app_iff in Y.
  assert (X : exists x, In x (map fst (flat_map bound_by ps)) /\ y = rho s x).
  { destruct Y as [Y|Y].
    - destruct (prefix_key y Y) as (x & X & E). exists x. split; [apply names_split_all; auto|exact E].
    - destruct B as (KB & _). destruct (KB y Y) as (x & X & E). exists x. split; [apply names_split_all; auto|exact E]. }
  destruct X as (x & X & ->). exists x. split; [apply bound_legal, X|]. split; [reflexivity|apply after_allocated, X].
Qed.
Lemma branch_env : env_ok (map snd new ++ used) (new ++ vars) (after_patterns ps s) (gb ++ genv) (prefix_env ++ l ++ eenv).
Proof.
  rewrite app_assoc. eapply env_bind; [exact K|apply after_start|exact F|exact PL| | |apply branch_news].
  - intros x X. apply NA, names_split_all. destruct B as (_ & _ & _ & GB). apply GB, X.
  - intros x X. apply NA, names_split_all in X. rewrite lookup_app. destruct B as (KB & BB & BP & GB). destruct X as [X|X].
    + destruct (BB x X) as (v & t & E1 & E2 & V). exists v, t. split; [exact E1|]. split; [|exact V]. rewrite lookup_none; [exact E2|]. intro J.
      destruct (prefix_key _ J) as (z & Z & E). apply rho_inj in E; [subst z; eapply direct_prefix; eassumption| |]; apply bound_legal, names_split_all; auto.
    + apply in_map_iff in X. destruct X as ([x' [at_ w]] & E & I). cbn in E. subst x'. exists (DString (unescaped w)), (VBinary (unescaped w)).
      split; [eapply BP, I|]. split; [|constructor]. rewrite (prefix_lookup _ _ _ I). reflexivity.
Qed.
(** Bodies run after the assignments. *)
Lemma branch_body_runs h body q : body_runs (prefix_env ++ l ++ eenv) h body q ->
  body_runs (l ++ eenv) h (map meaning (prefix_nodes (rho (alloc (flat_map direct ps) s)) (sorted_by_name (backwards prefixes ps))) ++ body)
    (lift (fun q => (fst q, snd q ++ prefix_env)) q).
Proof.
  intro H. assert (E : prefix_nodes (rho (alloc (flat_map direct ps) s)) (sorted_by_name (backwards prefixes ps)) = prefix_nodes (rho s) (sorted_by_name (backwards prefixes ps))).
  { unfold prefix_nodes. apply map_ext_in. intros e I. rewrite rho_alloc; [reflexivity| |].
    - apply NoDup_app_l with (b := map fst (bare (backwards prefixes ps))); rewrite <- map_app. eapply Permutation_NoDup; [apply Permutation_map, PB|apply FB].
    - intro J. apply (direct_prefix (fst e) J). apply in_map, sorted_in, I. }
  rewrite E. apply assignments_run; [apply rho_inj|apply rho_plain| | | |exact H].
  - eapply Permutation_NoDup; [apply Permutation_map; symmetry; apply sorted_permutation, prefix_names|apply prefix_names].
  - rewrite Forall_forall. intros x X. apply bound_legal, names_split_all. right. apply sorted_names, X.
  - intros x X. apply sorted_names in X. assert (LX : legal_name x) by (apply bound_legal, names_split_all; auto). rewrite lookup_app, lookup_none.
    + eapply env_unbound; [exact K|apply rho_fresh, LX].
    + intro J. destruct B as (KB & _). destruct (KB _ J) as (z & Z & EZ). apply rho_inj in EZ; [subst z; eapply direct_prefix; eassumption|exact LX|].
      apply bound_legal, names_split_all. auto.
Qed.
(** A branch that is taken. *)
Lemma branch_sound h body s' r (run : history * ((term * env) + term) -> Prop) : at_start used (after_patterns ps s) s' ->
  sound (after_patterns ps s) s' (body_runs (prefix_env ++ l ++ eenv) h (map meaning body)) r ->
  (forall q, body_runs (l ++ eenv) h (map meaning (prefix_nodes (rho (alloc (flat_map direct ps) s)) (sorted_by_name (backwards prefixes ps)) ++ body)) q ->
    run (lift (fun q => (fst q, snd q ++ l)) q)) ->
  sound s s' run r.
Proof.
  intros A S I. eapply sound_after; [apply after_start|exact A|apply branch_news|exact S|]. intros q Q. apply branch_body_runs in Q. rewrite <- map_app in Q.
  apply I in Q. rewrite lift_lift in Q. erewrite lift_ext; [exact Q|]. intros [v b]. cbn [fst snd]. rewrite app_assoc. reflexivity.
Qed.
End Branch.

(** ** Branches *)

Section Step.
Context (n : nat) (IT : T_at n) (IR : R_at n).
Lemma branches_step : R_at (S n).
Proof.
  intros fn vs ts l nodes used vars genv eenv s0 s' h eh r U K0 VS P BR V. destruct BR as [|[[ps g] e] node l nodes BA BR]; [discriminate|].
  assert (NEXT : value_of_branches n fn genv h vs l = Some r -> sound s0 s' (clauses_run eenv eh (subject ts) (map clause_meaning nodes)) r).
  { intro V2. eapply IR; eassumption. }
  destruct BA as (s & gn & body & s2 & new & A0 & LN & F & FB & NA & PL & PD & GU & LE & NE & LP & TB & -> & A2).
  assert (K := env_later _ _ _ _ _ _ _ _ _ K0 A0).
  assert (GR : good_row ps). { repeat split; [apply FB|rewrite Forall_forall; apply (bound_legal _ _ FB)|exact LP]. }
  assert (FR : forall x, In x (map fst (flat_map direct ps)) -> lookup (rho s x) eenv = None).
  { intros x X. eapply env_unbound; [exact K|]. apply rho_fresh, (bound_legal _ _ FB), names_split_all. auto. }
  cbn [ErlangCodeSpec.value_of_branches] in V. destruct (all_match matches ps vs) as [gr|] eqn:M; [|discriminate].
  assert (HM := head_matches (rho s) (rho_inj s) (rho_plain s) ps vs ts eenv gr VS LN GR FR M).
  change (map clause_meaning (branch_node s ps gn body :: nodes)) with
    ((meaning (row_node (rho s) ps), (match gn with Some g => [meaning g] | None => [] end,
       map meaning (prefix_nodes (rho (alloc (flat_map direct ps) s)) (sorted_by_name (backwards prefixes ps)) ++ body))) :: map clause_meaning nodes).
  destruct gr as [gb|].
  2:{ eapply sound_impl; [|apply NEXT, V]. intros q Q. apply clause_differs; assumption. }
  destruct HM as (m & HM & B).
  assert (KB := branch_env used vars genv eenv s K ps new F FB NA PL gb m B).
  assert (TAKEN : value_of n fn (gb ++ genv) h e = Some r ->
    (forall q, body_runs (m ++ eenv) eh (map meaning (prefix_nodes (rho (alloc (flat_map direct ps) s)) (sorted_by_name (backwards prefixes ps)) ++ body)) q ->
      clauses_run eenv eh (subject ts) ((meaning (row_node (rho s) ps), (match gn with Some g => [meaning g] | None => [] end,
       map meaning (prefix_nodes (rho (alloc (flat_map direct ps) s)) (sorted_by_name (backwards prefixes ps)) ++ body))) :: map clause_meaning nodes)
       (lift (fun q => (fst q, snd q ++ m)) q)) ->
    sound s0 s' (clauses_run eenv eh (subject ts) ((meaning (row_node (rho s) ps), (match gn with Some g => [meaning g] | None => [] end,
       map meaning (prefix_nodes (rho (alloc (flat_map direct ps) s)) (sorted_by_name (backwards prefixes ps)) ++ body))) :: map clause_meaning nodes)) r).
  { intros V2 I. assert (S := IT _ _ _ _ _ _ _ _ _ _ _ _ U KB LE NE P TB V2).
    assert (AB : at_start used (after_patterns ps s) s2).
    { destruct KB as (I1 & R1 & _). destruct (body_of_branch (ctx fn) module e _ _ (expression_goes (ctx fn) module e) (fun l _ => all_stmts _ _ _ _ l) I1 LE) as [d D].
      eapply start_less; [|eapply goes_start; [exact D|exact R1|exact TB]]. apply incl_appr, incl_refl. }
    eapply sound_states; [exact A0|exact A2|]. exact (branch_sound used vars genv eenv s K ps new FB NA PL gb m B _ _ _ _ _ AB S I). }
  destruct g as [g|].
  - destruct GU as (LG & gm & TG & ->). destruct (guard_value (gb ++ genv) g) as [v|] eqn:GV; [|discriminate].
    destruct (as_bool v) as [b|] eqn:AB; [|discriminate].
    assert (GA : forall a : aliases, forall x, In x (map fst a) -> get x a <> None).
    { induction a as [|[z w] a IH]; intros x X; [destruct X|]. destruct X as [X|X]; cbn; cbn in X; [subst; rewrite text_eqb_refl; discriminate|]. destruct (text_eqb z x); [discriminate|auto]. }
    destruct (guard_runs module path lines forms eworld (new ++ vars) (flat_map aliased ps) (gb ++ genv) (m ++ eenv) (alloc (flat_map direct ps) s) eh) with (g := g) (a := backwards prefixes ps) (n := gm) (v := v) (s2 := alloc (flat_map direct ps) s) as (t & RG & VG); try assumption.
    + intros x l0 L O. rewrite lookup_app in L. destruct (lookup x new) as [l1|] eqn:E.
      * injection L as ->. apply lookup_in in E. assert (IX : In x (map fst new)) by (apply in_map_iff; exists (x, l0); auto).
        apply NA, names_split_all in IX. destruct IX as [IX|IX]; [|exfalso; apply O, aliased_all, IX]. destruct B as (KB1 & BB & _ & GB).
        destruct (BB x IX) as (w & u & E1 & E2 & VU). exists (rho s x), w, u. split; [apply PD; assumption|]. rewrite ! lookup_app, E1, E2. auto.
      * destruct K as (I1 & R1 & KV & KA). destruct (KV x l0 L) as (y & w & u & E1 & E2 & E3 & VU). exists y, w, u.
        assert (OX : ~ In x (map fst new)).
        { intro IX. clear - E IX. induction new as [|[z q] l IH]; [destruct IX|]. cbn in E. destruct (text_eqb x z) eqn:T; [discriminate|].
          destruct IX as [IX|IX]; [cbn in IX; subst; rewrite text_eqb_refl in T; discriminate|auto]. }
        split; [|split; [|split; [|exact VU]]].
        -- rewrite place_alloc_out; [exact E1|]. intro J. apply in_map_iff in J. destruct J as ([z l1] & EZ & J). cbn in EZ. subst l1.
           assert (J2 : In (z, l0) (flat_map bound_by ps)).
           { eapply Permutation_in; [symmetry; apply bound_split_all|]. apply in_app_iff. left. exact J. }
           destruct FB as (_ & _ & FB). rewrite Forall_forall in FB. destruct (FB _ J2) as [_ OU]. apply OU, I1. apply in_map_iff. exists (x, l0).
           split; [reflexivity|apply lookup_in, L].
        -- rewrite lookup_app, lookup_none; [exact E2|]. intro J. apply OX, NA, names_split_all. destruct B as (_ & _ & _ & GB). apply GB, J.
        -- rewrite lookup_app, lookup_none; [exact E3|]. intro J. destruct B as (KB1 & _). destruct (KB1 _ J) as (z & Z & EZ).
           assert (AY : allocated s y) by (apply KA; eapply lookup_key, E3). rewrite EZ in AY. revert AY. apply rho_fresh, (bound_legal _ _ FB), names_split_all. auto.
    + split.
      * intros x X. left. apply aliased_all in X. apply GA, X.
      * intros x at_ w G. rewrite get_lookup in G. apply lookup_in in G. split.
        -- apply aliased_all. apply in_map_iff. exists (x, (at_, w)). auto.
        -- rewrite lookup_app. destruct B as (_ & _ & BP & _). rewrite (BP _ _ _ G). reflexivity.
    + rewrite (rel_bool _ _ _ _ _ _ VG AB) in RG. destruct b.
      * apply TAKEN; [exact V|]. intros q Q. eapply clause_guard_true; eassumption.
      * eapply sound_impl; [|apply NEXT, V]. intros q Q. eapply clause_guard_false; eassumption.
  - subst gn. apply TAKEN; [exact V|]. intros q Q. apply clause_chosen; assumption.
Qed.
End Step.
End Sim.
