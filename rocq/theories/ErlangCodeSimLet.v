(** The code that is generated does what the code of the program does: variables that are bound,
    and errors. *)
From Coq Require Import String NArith ZArith List Bool Lia Permutation ZifyBool ZifyN ZifyNat.
From Verif Require Import Text TextProofs Strings StringsSpec StringsProofs Erl ErlangSource ErlangSourceSpec ErlangTypes
  ErlangCode ErlangRun ErlangRunProofs ErlangCodeSpec ErlangCodeTree ErlangCodeCalls ErlangCodeNames ErlangCodeState ErlangCodeRel ErlangCodeEnv
  ErlangCodeSim ErlangCodeSimExpr.
Import ListNotations.
Local Open Scope nat_scope.
Local Open Scope list_scope.

Lemma lookup_pair {A} y (t : A) l : NoDup (map fst l) -> In (y, t) l -> lookup y l = Some t.
Proof.
  induction l as [|[z u] l IH]; intros N I; [destruct I|]. inversion N; subst. cbn. destruct I as [I|I].
  - injection I as -> ->. rewrite text_eqb_refl. reflexivity.
  - destruct (text_eqb y z) eqn:E; [|auto]. apply text_eqb_eq in E. subst. exfalso. apply H1. apply in_map_iff. exists (z, t). auto.
Qed.

(** ** Matches *)

Section Onto.
Context (module path : text) (lines : N -> N) (forms : list form) (eworld : history -> text -> text -> list term -> option term).
Notation vrel := (vrel module path lines).
Notation binds := (binds module path lines).
Notation runs := (runs forms eworld).
Context (r : text -> text) (r_inj : forall x y, legal_name x -> legal_name y -> r x = r y -> x = y)
  (r_plain : forall x, legal_name x -> r x <> str "_").

Lemma binds_one x l v t : vrel v t -> binds r [(x, l)] [] [(x, v)] [(r x, t)].
Proof.
  intro V. repeat split; cbn.
  - intros y [<-|[]]. exists x. auto.
  - intros y [<-|[]]. exists v, t. rewrite ! text_eqb_refl. auto.
  - contradiction.
  - intros y [<-|[]]. auto.
Qed.
Lemma binds_ext D A gb l l' : (forall y, lookup y l = lookup y l') -> (forall y, In y (map fst l') -> In y (map fst l)) -> binds r D A gb l -> binds r D A gb l'.
Proof.
  intros E I (K & B & C & G). repeat split; auto. intros x X. destruct (B x X) as (v & t & E1 & E2 & V). exists v, t. rewrite <- E. auto.
Qed.
Definition onto_ok (p : pattern) : Prop := forall E bound h h1 t b v gb, runs bound h E (h1, inl (t, b)) -> vrel v t -> good p ->
  (forall x, In x (map fst (direct p)) -> lookup (r x) (b ++ bound) = None) -> matches p v = Some (Some gb) ->
  exists l, runs bound h (match_onto (meaning (p_node r p)) E) (h1, inl (t, l ++ b)) /\ binds r (direct p) (prefixes p) gb l.
Lemma onto_plain p : match meaning (p_node r p) with EMatch _ _ => False | _ => True end -> onto_ok p.
Proof.
  intros N E bound h h1 t b v gb R V G F M. destruct (all_patterns _ _ _ r r_inj r_plain p v t (b ++ bound) _ V G F M) as (l & ML & B).
  exists l. split; [|exact B]. replace (match_onto (meaning (p_node r p)) E) with (EMatch (meaning (p_node r p)) E).
  - eapply runs_match; eassumption.
  - destruct (meaning (p_node r p)); try reflexivity. contradiction.
Qed.
Lemma onto_all p : onto_ok p.
Proof.
  pattern p. apply pattern_rect'; clear p; intros; try (apply onto_plain; exact I).
  - apply onto_plain. cbn [p_node meaning]. unfold int_meaning. destruct (z <? 0)%Z; exact I.
  - (* as *)
    intros E bound h h1 t b v gb R V (N & LN & LP) F M. cbn [matches] in M. cbn [bound_by legal_pattern direct prefixes] in *. rewrite map_app in *. cbn [map fst] in *.
    rewrite Forall_app in LN. destruct LN as [LN LX]. inversion LX; subst. clear LX H3.
    assert (NX : ~ In x (map fst (bound_by p))). { intro J. apply (NoDup_app_disjoint _ _ x N J). left. reflexivity. }
    assert (G1 : good p) by (repeat split; [apply (NoDup_app_l _ _ N)|exact LN|exact LP]).
    assert (LD : forall z, In z (map fst (direct p)) -> legal_name z).
    { intros z Z. rewrite Forall_forall in LN. apply LN, names_split. auto. }
    assert (OD : ~ In x (map fst (direct p))) by (intro; apply NX, names_split; auto).
    destruct (matches p v) as [[gp|]|] eqn:MP; try discriminate. injection M as <-.
    cbn [p_node meaning]. rewrite onto_assoc. cbn [match_onto].
    assert (R1 : runs bound h (EMatch (EVar (r x)) E) (h1, inl (t, [(r x, t)] ++ b))).
    { eapply runs_match; [exact R|]. cbn [match_]. destruct (text_eqb (r x) (str "_")) eqn:EX; [apply text_eqb_eq in EX; exfalso; eapply r_plain; eassumption|].
      rewrite F; [reflexivity|]. apply in_app_iff. right. left. reflexivity. }
    destruct (H _ _ _ _ _ _ _ gp R1 V G1) as (l1 & R2 & B).
    { intros z Z. cbn [app lookup]. destruct (text_eqb (r z) (r x)) eqn:EZ.
      - apply text_eqb_eq, r_inj in EZ; auto. subst. contradiction.
      - apply F, in_app_iff. auto. }
    { exact MP. }
    exists (l1 ++ [(r x, t)]). rewrite <- app_assoc. split; [exact R2|].
    assert (BO := binds_one x l v t V).
    assert (BB := fun O L => binds_app _ _ _ r r_inj _ _ _ _ _ _ _ _ O L B BO). cbn [app] in BB.
    eapply binds_ext; [| |apply BB].
    + intro y. rewrite lookup_app. cbn [lookup app]. destruct (text_eqb y (r x)) eqn:EY.
      * apply text_eqb_eq in EY. subst y. rewrite lookup_none; [reflexivity|]. intro J. destruct B as (KB & _). destruct (KB _ J) as (z & Z & EZ). apply r_inj in EZ; auto. subst. contradiction.
      * destruct (lookup y l1); reflexivity.
    + intros y Y. rewrite map_app in Y. apply in_app_iff in Y. cbn [app map fst In] in *. destruct Y as [Y|[Y|[]]]; auto.
    + intros z Z [[<-|[]]|[]]. apply NX, names_split. exact Z.
    + intros z [Z|[<-|[]]]; auto.
  - (* list *)
    destruct ps as [|q ps]; [|apply onto_plain; exact I]. destruct tail as [q|]; [|apply onto_plain; exact I].
    intros E bound h h1 t b v gb R V (N & LN & LP) F M. cbn [p_node map fold_right direct flat_map prefixes bound_by legal_pattern app each] in *.
    change (backwards prefixes []) with (@nil (text * (span * text))). rewrite app_nil_r. eapply (H0 E); try eassumption. repeat split; tauto.
  - destruct ps; apply onto_plain; exact I.
Qed.
End Onto.

Section Sim.
Context (module path : text) (lines : N -> N) (forms : list form) (eworld : history -> text -> text -> list term -> option term)
  (functions : list function) (gworld : past -> foreign -> list value -> option value).
Notation ctx fn := (Context module path fn lines).
Notation vrel := (vrel module path lines).
Notation env_ok := (env_ok module path lines).
Notation legal := (legal module).
Notation legal_body := (legal_body legal).
Notation legal_steps := (legal_steps legal).
Notation legal_call := (legal_call legal).
Notation tex fn := (t_expression (ctx fn)).
Notation value_of := (value_of module lines functions gworld).
Notation values_of := (values_of module lines functions gworld).
Notation value_of_steps := (value_of_steps module lines functions gworld).
Notation value_of_body := (value_of_body module lines functions gworld).
Notation value_of_branches := (value_of_branches module lines functions gworld).
Notation applied := (applied module lines functions gworld).
Notation runs := (runs forms eworld).
Notation list_runs := (list_runs forms eworld).
Notation body_runs := (body_runs forms eworld).
Notation args_run := (args_run forms eworld).
Notation clauses_run := (clauses_run forms eworld).
Notation call_runs := (call_runs forms eworld).
Notation sound := (sound module path lines).
Notation sounds := (sounds module path lines).
Notation E_at := (E_at module path lines forms eworld functions gworld).
Notation M_at := (M_at module path lines forms eworld functions gworld).
Notation T_at := (T_at module path lines forms eworld functions gworld).
Notation L_at := (L_at module path lines forms eworld functions gworld).
Notation S_at := (S_at module path lines forms eworld functions gworld).
Notation B_at := (B_at module path lines forms eworld functions gworld).
Notation R_at := (R_at module path lines forms eworld functions gworld).
Notation A_at := (A_at module path lines forms eworld functions gworld).
Notation reports_ := (reports vrel (unescaped path) module).

(** ** [let] *)

Lemma news_names s s' (l : env) : (forall y, In y (map fst l) -> exists x, legal_name x /\ y = rho s x /\ allocated s' (rho s x)) -> news s s' l.
Proof. intros H y Y. destruct (H y Y) as (x & L & -> & A). split; [exact A|apply rho_fresh, L]. Qed.

Section Let.
Context (n : nat) (IM : M_at n) (fn : text) (used : list span) (vars : scope) (genv : variables) (eenv : env) (s : state) (h : past) (eh : history)
  (U : unescaped fn = fn) (K : env_ok used vars s genv eenv) (P : represents_past h eh).

Lemma let_step p e m s1 r0 : legal (map snd (bound_by p) ++ used) vars e -> legal_pattern p -> prefixes p = [] -> fresh used (bound_by p) ->
  t_let (tex fn) e p s = Some (m, s1) -> value_of n fn genv h e = Some r0 ->
  at_start used s s1 /\
  match snd r0 with
  | inr f => exists eh1 t, represents_past (fst r0) eh1 /\ reports_ f t /\ runs eenv eh (meaning m) (eh1, inr t)
  | inl v => forall gb, matches p v = Some (Some gb) ->
      exists eh1 t b, represents_past (fst r0) eh1 /\ vrel v t /\ news s s1 b /\ runs eenv eh (meaning m) (eh1, inl (t, b)) /\
        env_ok (map snd (bound_by p) ++ used) (bound_by p ++ vars) s1 (gb ++ genv) (b ++ eenv)
  end.
Proof.
  intros LE LP NP F T V. set (new := bound_by p) in *. assert (PB := bound_split p). rewrite NP in PB. cbn [bare map] in PB. rewrite app_nil_r in PB.
  fold new in PB. assert (F' := fresh_perm _ _ _ PB F). unfold t_let in T. erewrite bind_eq in T by (apply pattern_ok; apply F'). run T. rename r into mv, E into T, s0 into s1. cbn [fst] in *.
  assert (A0 : at_start used s (alloc (direct p) s)) by (apply alloc_start, F').
  assert (J : incl used (map snd new ++ used)) by (apply incl_appr, incl_refl).
  assert (K0 : env_ok (map snd new ++ used) vars (alloc (direct p) s) genv eenv).
  { eapply env_used; [exact J|]. exact (env_later _ _ _ _ _ _ _ _ _ K A0). }
  assert (A1 := maybe_start _ _ _ _ _ _ _ _ _ _ _ _ K0 LE T). assert (A1' := start_less _ _ _ _ J A1). assert (A2 := start_trans _ _ _ _ A0 A1').
  split; [exact A2|]. destruct (IM _ _ _ _ _ _ _ _ _ _ _ _ U K0 LE P T V) as (eh1 & P1 & X). destruct r0 as [h1 [v|f]]; cbn [fst snd] in *.
  - destruct X as (t & b & VR & N & R). intros gb M.
    assert (LN : forall x, In x (map fst new) -> legal_name x) by (intros x X; exact (fresh_legal _ _ _ F X)).
    assert (DN : forall x, In x (map fst (direct p)) <-> In x (map fst new)) by (intro x; symmetry; apply perm_names, PB).
    assert (AL : forall x, In x (map fst new) -> allocated (alloc (direct p) s) (rho s x)).
    { intros x X. apply alloc_allocated; [apply F'|apply DN, X|apply LN, X]. }
    destruct (onto_all module path lines forms eworld (rho s) (rho_inj s) (rho_plain s) p _ _ _ _ _ _ _ gb R VR) as (l & RL & B).
    + repeat split; [apply F|rewrite Forall_forall; exact LN|exact LP].
    + intros x X. apply DN in X. rewrite lookup_app, lookup_none.
      * eapply env_unbound; [exact K|]. apply rho_fresh, LN, X.
      * intro I. apply (N _ I), AL, X.
    + exact M.
    + rewrite NP in B. destruct B as (KB & BB & _ & GB). exists eh1, t, (l ++ b).
      assert (NL : news s s1 (l ++ b)).
      { apply news_app; [exact (news_earlier _ _ _ _ _ A0 N)|]. apply news_names. intros y Y. destruct (KB y Y) as (x & X & ->). apply DN in X. exists x.
        split; [apply LN, X|]. split; [reflexivity|]. eapply start_allocated; [exact A1|apply AL, X]. }
      split; [exact P1|]. split; [exact VR|]. split; [exact NL|]. split; [exact RL|].
      eapply env_bind; [exact K|exact A2|exact F| | | |exact NL].
      * intros x l0 X. destruct A1 as (_ & _ & A1). rewrite A1; [|apply in_app_iff; left; apply in_map_iff; exists (x, l0); auto].
        apply place_alloc; [apply F'|apply F'|]. eapply Permutation_in; [exact PB|exact X].
      * intros x X. apply DN. destruct (GB x X) as [Y|[]]. exact Y.
      * intros x X. apply DN in X. destruct (BB x X) as (w & u & E1 & E2 & VU). exists w, u. rewrite lookup_app, E2. auto.
  - destruct X as (t & RT & R). exists eh1, t. split; [exact P1|]. split; [exact RT|].
    assert (X : forall p, runs eenv eh (match_onto p (meaning mv)) (eh1, inr t)).
    { induction p0; cbn [match_onto]; apply runs_match_fails; assumption. }
    apply X.
Qed.
Lemma bind_is x l e : t_bind (tex fn) x l e s = t_let (tex fn) e (PVariable l x) s.
Proof. unfold t_bind, t_let. cbn [t_pattern]. unfold bind at 1 3 4. rewrite new_variable. reflexivity. Qed.
Lemma bind_step x l e m s1 r0 : legal (l :: used) vars e -> fresh used [(x, l)] ->
  t_bind (tex fn) x l e s = Some (m, s1) -> value_of n fn genv h e = Some r0 ->
  at_start used s s1 /\
  match snd r0 with
  | inr f => exists eh1 t, represents_past (fst r0) eh1 /\ reports_ f t /\ runs eenv eh (meaning m) (eh1, inr t)
  | inl v => exists eh1 t b, represents_past (fst r0) eh1 /\ vrel v t /\ news s s1 b /\ runs eenv eh (meaning m) (eh1, inl (t, b)) /\
        env_ok (l :: used) ((x, l) :: vars) s1 ((x, v) :: genv) (b ++ eenv)
  end.
Proof.
  intros LE F T V. rewrite bind_is in T. destruct (let_step (PVariable l x) e m s1 r0 LE I eq_refl F T V) as (A & X). split; [exact A|].
  destruct (snd r0) as [v|f]; [|exact X]. exact (X _ eq_refl).
Qed.
End Let.

(** ** Errors *)

Section Errors.
Context (bound : env).
Definition pure_run (e : erl) (t : term) : Prop := forall h, runs bound h e (h, inl (t, [])).
Lemma pure_list es ts : Forall2 pure_run es ts -> forall h, list_runs bound h es (h, inl (ts, [])).
Proof.
  induction 1 as [|e t es ts E _ IH]; intro h; [apply list_nil|]. exact (list_cons _ _ _ _ _ _ _ _ _ _ _ _ (E h) (IH h) eq_refl).
Qed.
Lemma keys_run (l : list (text * node)) h : list_runs bound h (map fst (map (fun kv => (EAtom (fst kv), meaning (snd kv))) l)) (h, inl (map (fun kv => VAtom (fst kv)) l, [])).
Proof. apply pure_list. induction l; constructor; [intro; apply runs_atom|assumption]. Qed.
Lemma map_meaning (l : list (text * node)) : meaning (NMap (map (fun kv => (NAtom (fst kv), snd kv)) l)) = EMap (map (fun kv => (EAtom (fst kv), meaning (snd kv))) l).
Proof. cbn [meaning]. rewrite map_map. reflexivity. Qed.
Lemma values_row (l : list (text * node)) : map snd (map (fun kv => (EAtom (fst kv), meaning (snd kv))) l) = map (fun kv => meaning (snd kv)) l.
Proof. rewrite map_map. reflexivity. Qed.
Lemma map_runs (l : list (text * node)) h h1 vs cs : list_runs bound h (map (fun kv => meaning (snd kv)) l) (h1, inl (vs, cs)) ->
  runs bound h (meaning (NMap (map (fun kv => (NAtom (fst kv), snd kv)) l))) (h1, inl (VMap (List.combine (map (fun kv => VAtom (fst kv)) l) vs), cs)).
Proof.
  intro R. rewrite map_meaning. rewrite <- values_row in R. assert (X := runs_map _ _ _ _ _ _ _ _ _ _ _ (keys_run l h) R eq_refl). rewrite app_nil_r in X. exact X.
Qed.
Lemma map_fails (l : list (text * node)) h h1 t : list_runs bound h (map (fun kv => meaning (snd kv)) l) (h1, inr t) ->
  runs bound h (meaning (NMap (map (fun kv => (NAtom (fst kv), snd kv)) l))) (h1, inr t).
Proof. intro R. rewrite map_meaning. rewrite <- values_row in R. exact (runs_map_fails _ _ _ _ _ _ _ _ _ _ (keys_run l h) R). Qed.
Lemma string_pure w : pure_run (meaning (string_node w)) (VBinary (unescaped w)).
Proof. intro h. apply runs_binary. Qed.
Lemma nat_pure k : pure_run (meaning (NInt (Z.of_N k))) (VInt (Z.of_N k)).
Proof. intro h. apply runs_int. Qed.
Lemma atom_pure a : pure_run (meaning (NAtom a)) (VAtom a).
Proof. intro h. apply runs_atom. Qed.

Context (fn : text) (U : unescaped fn = fn) (PM : unescaped module = module).
Definition error_fields kind (location : span) (m : node) (more : list (text * node)) : list (text * node) :=
  [(str "gleam_error", NAtom (error_kind_name kind)); (str "message", m); (str "file", string_node path); (str "module", string_node module);
   (str "function", string_node fn); (str "line", NInt (Z.of_N (lines (fst location))))] ++ more.
Lemma error_is kind location m more : error_node (ctx fn) kind location m (map (fun kv => (NAtom (fst kv), snd kv)) more) =
  NRemote (str "erlang") (str "error") [NMap (map (fun kv => (NAtom (fst kv), snd kv)) (error_fields kind location m more))].
Proof. reflexivity. Qed.
Lemma error_runs kind (location : span) m more ts h h1 t b : runs bound h (meaning m) (h1, inl (t, b)) -> Forall2 pure_run (map (fun kv => meaning (snd kv)) more) ts ->
  runs bound h (meaning (error_node (ctx fn) kind location m (map (fun kv => (NAtom (fst kv), snd kv)) more)))
    (h1, inr (VMap ([(VAtom (str "gleam_error"), VAtom (error_kind_name kind)); (VAtom (str "message"), t); (VAtom (str "file"), VBinary (unescaped path));
       (VAtom (str "module"), VBinary module); (VAtom (str "function"), VBinary fn); (VAtom (str "line"), VInt (Z.of_N (lines (fst location))))] ++
       List.combine (map (fun kv => VAtom (fst kv)) more) ts))).
Proof.
  intros R M. rewrite error_is.
  assert (L : list_runs bound h (map (fun kv => meaning (snd kv)) (error_fields kind location m more))
    (h1, inl ([VAtom (error_kind_name kind); t; VBinary (unescaped path); VBinary module; VBinary fn; VInt (Z.of_N (lines (fst location)))] ++ ts, b))).
  { assert (X : list_runs bound h1 (map (fun kv => meaning (snd kv)) (skipn 2 (error_fields kind location m more)))
      (h1, inl ([VBinary (unescaped path); VBinary module; VBinary fn; VInt (Z.of_N (lines (fst location)))] ++ ts, []))).
    { apply pure_list. cbn [skipn error_fields app map fst snd]. rewrite <- PM at 2. rewrite <- U at 2.
      repeat (constructor; [first [apply string_pure|apply nat_pure]|]). exact M. }
    assert (Y := list_cons _ _ _ _ _ _ _ _ _ _ _ _ R X (disjoint_keys b [] (fun _ _ F => F))). cbn [app] in Y.
    assert (Z := list_cons _ _ _ _ _ _ _ _ _ _ _ _ (atom_pure (error_kind_name kind) h) Y eq_refl). rewrite app_nil_r in Z. exact Z. }
  apply map_runs in L. change (fun kv => (NAtom (fst kv), snd kv)) with (fun kv : text * node => (NAtom (fst kv), snd kv)) in L.
  assert (L1 := list_cons _ _ _ _ _ _ _ _ _ _ _ _ L (list_nil _ _ _ _) (disjoint_keys b [] (fun _ _ F => F))). cbn [app] in L1.
  exact (call_remote _ _ _ _ _ _ _ _ _ _ _ L1 (call_error _ _ _ _)).
Qed.
Lemma error_fails kind location m more h h1 t : runs bound h (meaning m) (h1, inr t) ->
  runs bound h (meaning (error_node (ctx fn) kind location m (map (fun kv => (NAtom (fst kv), snd kv)) more))) (h1, inr t).
Proof.
  intro R. rewrite error_is. cbn [meaning map]. apply call_remote_fails. apply list_head. apply (map_fails (error_fields kind location m more)).
  eapply list_tail; [apply atom_pure|]. apply list_head, R.
Qed.
End Errors.
End Sim.
