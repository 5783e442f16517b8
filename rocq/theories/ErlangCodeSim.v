(** The code that is generated does what the code of the program does: parts. *)
From Coq Require Import String NArith ZArith List Bool Lia Permutation ZifyBool ZifyN ZifyNat.
From Verif Require Import Text TextProofs Strings StringsSpec StringsProofs Erl ErlangSource ErlangSourceSpec ErlangTypes
  ErlangCode ErlangRun ErlangRunProofs ErlangCodeSpec ErlangCodeTree ErlangCodeCalls ErlangCodeNames ErlangCodeState ErlangCodeRel ErlangCodeEnv.
Import ListNotations.
Local Open Scope nat_scope.
Local Open Scope list_scope.

Lemma next_some {A B} (m : result A) (f : past -> A -> result B) r : next m f = Some r ->
  exists h q, m = Some (h, q) /\ match q with inl a => f h a = Some r | inr e => r = (h, inr e) end.
Proof.
  unfold next. destruct m as [[h [a|e]]|]; [| |discriminate]; intro H; exists h; eexists; (split; [reflexivity|]); [exact H|].
  injection H as <-. reflexivity.
Qed.
Lemma of_option_some {A} h (a : option A) r : of_option h a = Some r -> exists v, a = Some v /\ r = (h, inl v).
Proof. destruct a as [v|]; [|discriminate]. intro H. injection H as <-. eauto. Qed.

(** ** Arguments *)

Section Args.
Context (forms : list form) (world : history -> text -> text -> list term -> option term).
Notation runs := (runs forms world).
Inductive args_run (bound : env) : history -> list erl -> history * ((list term * env) + term) -> Prop :=
| args_nil h : args_run bound h [] (h, inl ([], []))
| args_cons h e l h1 v b h2 vs bs : runs bound h e (h1, inl (v, b)) -> args_run bound h1 l (h2, inl (vs, bs)) ->
    disjoint b bs = true -> args_run bound h (e :: l) (h2, inl (v :: vs, bs ++ b))
| args_head h e l h1 t : runs bound h e (h1, inr t) -> args_run bound h (e :: l) (h1, inr t)
| args_tail h e l h1 v b h2 t : runs bound h e (h1, inl (v, b)) -> args_run bound h1 l (h2, inr t) ->
    args_run bound h (e :: l) (h2, inr t).
Lemma args_list bound h l r : args_run bound h l r -> list_runs forms world bound h l r.
Proof.
  induction 1; [apply list_nil|eapply list_cons|apply list_head|eapply list_tail]; eassumption.
Qed.
Lemma args_one bound h e r : args_run bound h [e] r -> exists q, runs bound h e q /\ r = lift (fun q => ([fst q], snd q)) q.
Proof.
  intro H. inversion H; subst.
  - match goal with K : args_run _ _ [] _ |- _ => inversion K; subst end. eexists. split; [eassumption|]. reflexivity.
  - eexists. split; [eassumption|]. reflexivity.
  - match goal with K : args_run _ _ [] _ |- _ => inversion K end.
Qed.
Lemma args_of_one bound h e q : runs bound h e q -> args_run bound h [e] (lift (fun q => ([fst q], snd q)) q).
Proof.
  destruct q as [h1 [[v b]|t]]; intro R; [|apply args_head, R]. exact (args_cons bound h e [] h1 v b h1 [] [] R (args_nil _ _) ltac:(apply disjoint_keys; intros ? ? [])).
Qed.
Lemma args_length bound h l h1 vs bs : args_run bound h l (h1, inl (vs, bs)) -> length vs = length l.
Proof.
  intro H. remember (h1, inl (vs, bs)) as q eqn:Q. revert h1 vs bs Q. induction H; intros; try discriminate; injection Q; intros; subst; cbn.
  - reflexivity.
  - f_equal. eapply IHargs_run. reflexivity.
Qed.
Lemma disjoint_app a b c : disjoint (a ++ b) c = disjoint a c && disjoint b c.
Proof. apply forallb_app. Qed.
Lemma disjoint_app_r a b c : disjoint a b = true -> disjoint a c = true -> disjoint a (b ++ c) = true.
Proof.
  unfold disjoint. rewrite ! forallb_forall. intros B C x X. rewrite lookup_app. specialize (B x X). specialize (C x X). destruct (lookup (fst x) b); [discriminate|exact C].
Qed.
Lemma args_conses bound e h2 t bt : forall es h h1 vs bs, args_run bound h es (h1, inl (vs, bs)) -> runs bound h1 e (h2, inl (t, bt)) ->
  disjoint bs bt = true -> runs bound h (fold_right ECons e es) (h2, inl (fold_right VCons t vs, bt ++ bs)).
Proof.
  induction es as [|a es IH]; intros h h1 vs bs A R D; inversion A; subst.
  - rewrite app_nil_r. exact R.
  - cbn [fold_right]. rewrite disjoint_app in D. apply andb_true_iff in D. destruct D as [D1 D2].
    match goal with K : args_run _ _ es _ |- _ => specialize (IH _ _ _ _ K R D1) end.
    apply runs_cons. rewrite app_assoc.
    assert (X := args_list _ _ _ _ (args_of_one _ _ _ _ IH)). unfold lift in X. cbn [fst snd] in X.
    eapply list_cons; [eassumption|exact X|]. apply disjoint_app_r; assumption.
Qed.
Lemma args_conses_fail bound e : forall es h h1 t, args_run bound h es (h1, inr t) -> runs bound h (fold_right ECons e es) (h1, inr t).
Proof.
  induction es as [|a es IH]; intros h h1 t A; inversion A; subst; cbn [fold_right]; apply runs_cons_fails.
  - apply list_head. assumption.
  - eapply list_tail; [eassumption|]. apply list_head. apply IH. assumption.
Qed.
Lemma args_conses_tail bound e h2 t : forall es h h1 vs bs, args_run bound h es (h1, inl (vs, bs)) -> runs bound h1 e (h2, inr t) ->
  runs bound h (fold_right ECons e es) (h2, inr t).
Proof.
  induction es as [|a es IH]; intros h h1 vs bs A R; inversion A; subst; cbn [fold_right].
  - exact R.
  - apply runs_cons_fails. eapply list_tail; [eassumption|]. apply list_head. eapply IH; eassumption.
Qed.
Lemma vars_run bound h xs ts : Forall2 (fun x t => lookup x bound = Some t) xs ts -> list_runs forms world bound h (map EVar xs) (h, inl (ts, [])).
Proof.
  induction 1 as [|x t xs ts L _ IH]; [apply list_nil|]. exact (list_cons forms world bound h _ _ h t [] h ts [] (runs_var _ _ _ _ _ _ L) IH eq_refl).
Qed.
End Args.

Lemma parameters_combine xs : forall (ts : list term), length xs = length ts -> NoDup xs -> ~ In (str "_") xs ->
  parameters (map EVar xs) ts = Some (List.combine xs ts).
Proof.
  induction xs as [|x xs IH]; intros [|t ts] L N D; try discriminate; [reflexivity|]. cbn [map parameters List.combine].
  inversion N; subst. rewrite IH; [|injection L; auto|assumption|intro; apply D; right; assumption].
  destruct (text_eqb x (str "_")) eqn:E; [apply text_eqb_eq in E; exfalso; apply D; left; exact E|].
  rewrite lookup_none; [reflexivity|]. intro I. apply H1. apply in_map_iff in I. destruct I as ([y u] & <- & I). apply in_combine_l in I. exact I.
Qed.
Lemma combine_lookup xs : forall (ts : list term) (e : env), length xs = length ts -> NoDup xs ->
  Forall2 (fun x t => lookup x (List.combine xs ts ++ e) = Some t) xs ts.
Proof.
  induction xs as [|x xs IH]; intros [|t ts] e L N; try discriminate; [constructor|]. inversion N; subst. cbn [List.combine app]. constructor.
  - cbn. rewrite text_eqb_refl. reflexivity.
  - injection L as L. specialize (IH ts e L H2). assert (K : Forall2 (fun y u => lookup y (List.combine xs ts ++ e) = Some u /\ y <> x) xs ts).
    { clear - IH H1. set (F := List.combine xs ts ++ e) in *. clearbody F. induction IH; constructor; [split; [assumption|]|apply IHIH; intro; apply H1; right; assumption]. intros ->. apply H1. left. reflexivity. }
    eapply Forall2_impl'; [|exact K]. intros y u [E NE]. cbn. destruct (text_eqb y x) eqn:T; [apply text_eqb_eq in T; contradiction|exact E].
Qed.

Section Sim.
Context (module path : text) (lines : N -> N) (forms : list form) (eworld : history -> text -> text -> list term -> option term)
  (functions : list function) (gworld : past -> foreign -> list value -> option value).
Notation ctx fn := (Context module path fn lines).
Notation vrel := (vrel module path lines).
Notation env_ok := (env_ok module path lines).
Notation legal := (legal module).
Notation legal_body := (legal_body legal).
Notation legal_steps := (legal_steps legal).
Notation tex fn := (t_expression (ctx fn)).
Notation value_of := (value_of module lines functions gworld).
Notation values_of := (values_of module lines functions gworld).
Notation value_of_steps := (value_of_steps module lines functions gworld).
Notation value_of_body := (value_of_body module lines functions gworld).
Notation value_of_branches := (value_of_branches module lines functions gworld).
Notation applied := (applied module lines functions gworld).
Notation runs := (runs forms eworld).
Notation body_runs := (body_runs forms eworld).
Notation args_run := (args_run forms eworld).
Notation clauses_run := (clauses_run forms eworld).
Notation call_runs := (call_runs forms eworld).

(** ** Outcomes *)

Definition sound (s s' : state) (run : history * ((term * env) + term) -> Prop) (r : past * (value + failure)) : Prop :=
  exists eh, represents_past (fst r) eh /\
  match snd r with
  | inl v => exists t b, vrel v t /\ news s s' b /\ run (eh, inl (t, b))
  | inr f => exists t, reports vrel (unescaped path) module f t /\ run (eh, inr t)
  end.
Definition sounds (s s' : state) (run : history * ((list term * env) + term) -> Prop) (r : past * (list value + failure)) : Prop :=
  exists eh, represents_past (fst r) eh /\
  match snd r with
  | inl vs => exists ts b, Forall2 vrel vs ts /\ news s s' b /\ run (eh, inl (ts, b))
  | inr f => exists t, reports vrel (unescaped path) module f t /\ run (eh, inr t)
  end.
Lemma sound_impl s s' (run run' : _ -> Prop) r : (forall q, run q -> run' q) -> sound s s' run r -> sound s s' run' r.
Proof.
  intros I (eh & P & H). exists eh. split; [exact P|]. destruct (snd r).
  - destruct H as (t & b & V & N & R). exists t, b. auto.
  - destruct H as (t & V & R). exists t. auto.
Qed.
Lemma sound_states used used' s0 s s' s1 run r : at_start used s0 s -> at_start used' s' s1 -> sound s s' run r -> sound s0 s1 run r.
Proof.
  intros A B (eh & P & H). exists eh. split; [exact P|]. destruct (snd r); [|exact H].
  destruct H as (t & b & V & N & R). exists t, b. split; [exact V|]. split; [|exact R]. eapply news_earlier; [exact A|]. eapply news_later; eassumption.
Qed.
(** A value that is there at once. *)
Lemma sound_now s s' (run : history * ((term * env) + term) -> Prop) h eh v t : represents_past h eh -> vrel v t -> run (eh, inl (t, [])) -> sound s s' run (h, inl v).
Proof. intros P V R. exists eh. split; [exact P|]. exists t, []. split; [exact V|]. split; [apply news_nil|exact R]. Qed.

(** ** States *)

Section Starts.
Context (fn : text).
Lemma goes_start {A} vars used d (m : M A) s a s' : goes vars used d m -> resolves vars s -> m s = Some (a, s') -> at_start used s s'.
Proof. intros G R E. destruct (G s R) as (a' & s1 & E' & V). rewrite E in E'. injection E' as <- <-. eapply moves_start, V. Qed.
Lemma expr_start used vars s genv eenv e ns s' : env_ok used vars s genv eenv -> legal used vars e -> tex fn e s = Some (ns, s') -> at_start used s s'.
Proof. intros (I & R & _) L T. destruct (expression_goes (ctx fn) module e used vars I L) as [d D]. eapply goes_start; eassumption. Qed.
Lemma maybe_start used vars s genv eenv e n s' : env_ok used vars s genv eenv -> legal used vars e -> t_maybe (tex fn) e s = Some (n, s') -> at_start used s s'.
Proof. intros K L T. unfold t_maybe in T. run T. eapply expr_start; eassumption. Qed.
Lemma all_G l : Forall (G (ctx fn) module) l.
Proof. rewrite Forall_forall. intros. apply expression_goes. Qed.
Lemma all_stmts l : Forall (in_stmt (G (ctx fn) module)) l.
Proof.
  rewrite Forall_forall. intros [e|p e|p e ee m loc] _; cbn; [apply expression_goes|apply expression_goes|].
  split; [apply expression_goes|]. destruct m; [apply expression_goes|exact I].
Qed.
Lemma maybes_start used vars s genv eenv l ns s' : env_ok used vars s genv eenv -> each (legal used vars) l ->
  map_m (t_maybe (tex fn)) l s = Some (ns, s') -> at_start used s s'.
Proof. intros (I & R & _) L T. destruct (maybes_go (ctx fn) module l used vars (all_G l) I L) as [d D]. eapply goes_start; eassumption. Qed.
Lemma body_start used vars s genv eenv l ns s' : env_ok used vars s genv eenv -> legal_body used vars l ->
  t_body (ctx fn) (tex fn) l s = Some (ns, s') -> at_start used s s'.
Proof. intros (I & R & _) L T. destruct (body_goes (ctx fn) module l (all_stmts l) used vars I L) as [d D]. eapply goes_start; eassumption. Qed.
Lemma message_start used vars s genv eenv k m n s' : env_ok used vars s genv eenv -> match m with Some m => legal used vars m | None => True end ->
  t_message (tex fn) k m s = Some (n, s') -> at_start used s s'.
Proof.
  intros K L T. destruct m as [e|]; [eapply maybe_start; eassumption|]. cbn [t_message] in T. run T. apply start_refl.
Qed.
End Starts.
Lemma generated_start used s : at_start used s (State (taken_names s) (variable_names s) (generated_variables s + 1)).
Proof. eapply moves_start, moves_generated. Qed.
Lemma alloc_start used b s : fresh used b -> at_start used s (alloc b s).
Proof. intro F. eapply moves_start, moves_alloc, F. Qed.
Lemma map_m_length {A B} (f : A -> M B) : forall l s ns s', map_m f l s = Some (ns, s') -> length ns = length l.
Proof. induction l as [|a l IH]; intros s ns s' T; cbn [map_m] in T; run T; [reflexivity|]. cbn. f_equal. eapply IH, E0. Qed.

(** ** What is shown for a number of steps *)

Definition E_at n := forall fn e used vars genv eenv s ns s' h eh r, unescaped fn = fn -> env_ok used vars s genv eenv -> legal used vars e ->
  represents_past h eh -> tex fn e s = Some (ns, s') -> value_of n fn genv h e = Some r ->
  sound s s' (body_runs eenv eh (map meaning ns)) r.
Definition M_at n := forall fn e used vars genv eenv s m s' h eh r, unescaped fn = fn -> env_ok used vars s genv eenv -> legal used vars e ->
  represents_past h eh -> t_maybe (tex fn) e s = Some (m, s') -> value_of n fn genv h e = Some r ->
  sound s s' (runs eenv eh (meaning m)) r.
Definition T_at n := forall fn e used vars genv eenv s ns s' h eh r, unescaped fn = fn -> env_ok used vars s genv eenv -> legal used vars e ->
  e <> Block [] -> represents_past h eh -> branch_body (ctx fn) e s = Some (ns, s') -> value_of n fn genv h e = Some r ->
  sound s s' (body_runs eenv eh (map meaning ns)) r.
Definition L_at n := forall fn l used vars genv eenv s ns s' h eh r, unescaped fn = fn -> env_ok used vars s genv eenv -> each (legal used vars) l ->
  represents_past h eh -> map_m (t_maybe (tex fn)) l s = Some (ns, s') -> values_of n fn genv h l = Some r ->
  sounds s s' (args_run eenv eh (map meaning ns)) r.
Definition S_at n := forall fn l last used vars genv eenv s ns s1 ls s' h eh r, unescaped fn = fn -> env_ok used vars s genv eenv -> legal_steps last used vars l ->
  represents_past h eh -> map_m (fun '(name, location, value) => t_bind (tex fn) name location value) l s = Some (ns, s1) ->
  tex fn last s1 = Some (ls, s') -> value_of_steps n fn genv h l last = Some r ->
  sound s s' (body_runs eenv eh (map meaning (ns ++ ls))) r.
Definition B_at n := forall fn l used vars genv eenv s ns s' h eh r, unescaped fn = fn -> env_ok used vars s genv eenv -> legal_body used vars l ->
  l <> [] -> represents_past h eh -> t_body (ctx fn) (tex fn) l s = Some (ns, s') -> value_of_body n fn genv h l = Some r ->
  sound s s' (body_runs eenv eh (map meaning ns)) r.
Definition subject (ts : list term) : term := match ts with [t] => t | _ => VTuple ts end.
Definition clause_meaning (c : node * (option node * list node)) : erl * (list erl * list erl) :=
  (meaning (fst c), (match fst (snd c) with Some g => [meaning g] | None => [] end, map meaning (snd (snd c)))).
Definition R_at n := forall fn vs ts l nodes used vars genv eenv s s' h eh r, unescaped fn = fn -> env_ok used vars s genv eenv ->
  Forall2 vrel vs ts -> represents_past h eh ->
  Forall2 (branch_at (ctx fn) module used vars (length vs) s s') l nodes -> value_of_branches n fn genv h vs l = Some r ->
  sound s s' (clauses_run eenv eh (subject ts) (map clause_meaning nodes)) r.
Definition A_at n := forall h eh f t vs ts r, vrel f t -> Forall2 vrel vs ts -> represents_past h eh -> applied n h f vs = Some r ->
  exists eh', represents_past (fst r) eh' /\
  match snd r with
  | inl v => exists u, vrel v u /\ call_runs eh t ts (eh', inl u)
  | inr f => exists u, reports vrel (unescaped path) module f u /\ call_runs eh t ts (eh', inr u)
  end.

Lemma wrapped e inner bound h r : body_runs bound h (map meaning inner) r ->
  runs bound h (meaning (if needs_begin_end_wrapping e then NBlock inner else single inner)) r.
Proof.
  intro H. destruct (needs_begin_end_wrapping e); [apply runs_block, H|]. destruct inner as [|n [|n' l]]; [apply body_not_nil in H; contradiction| |].
  - apply body_inv_one, H.
  - apply runs_block, H.
Qed.
Lemma maybe_holds n : E_at n -> M_at n.
Proof.
  intros IE fn e used vars genv eenv s m s' h eh r U K L P T V. unfold t_maybe in T. run T.
  eapply sound_impl; [|eapply IE; eassumption]. intros q Q. apply wrapped, Q.
Qed.
End Sim.
