(** C29: instantiation and generalisation.  C50: function types expected of a type. *)
From Coq Require Import String ZArith NArith Arith Bool List Lia ZifyBool ZifyNat ZifyN.
From Verif Require Import Text Unify UnifySpec UnifyProofs Instantiate InstantiateSpec InstantiateProofs.
Import ListNotations.
Local Open Scope nat_scope.

(** ** Instantiation *)
(** The exact result, for any types [m] that generic variables have already been replaced with. *)
Theorem C29_instantiation_exactly rigid e m t u fuel t' e' m' : resolves (variables e) t u ->
  instantiate fuel rigid (e, m) t = Answer (t', (e', m')) ->
  (e', m') = fold_left give (newcomers rigid (map fst m) (generics u)) (e, m) /\
  copy (variables e) (fun i => lookup i m') t t'.
Proof.
  intros R E. pose proof (instantiate_spec rigid fuel (e, m) t u R) as X. rewrite E in X. exact X.
Qed.
Print Assumptions C29_instantiation_exactly.

(** Seen from outside: each generic variable that is not rigid becomes one new unbound variable,
    different ones become different ones, nothing else of the type changes, and no variable that
    existed before changes. *)
Theorem C29_instances_are_fresh_copies rigid e t u fuel t' e' m' : well e -> resolves (variables e) t u ->
  instantiate fuel rigid (e, []) t = Answer (t', (e', m')) ->
  exists f : N -> option N,
    resolves (variables e') t' (instance f u) /\
    (forall i, f i <> None <-> In i (generics u) /\ rigid i = false) /\
    (forall i j k, f i = Some k -> f j = Some k -> i = j) /\
    (forall i k, f i = Some k -> (ids e <= k < ids e')%N) /\
    (forall c v, nth_error (variables e) c = Some v -> nth_error (variables e') c = Some v) /\
    (forall c v, length (variables e) <= c -> nth_error (variables e') c = Some v -> exists i k, v = Unbound k /\ f i = Some k) /\
    well e'.
Proof.
  intros (Fi & D & C) R E. destruct (C29_instantiation_exactly _ _ _ _ _ _ _ _ _ R E) as [Es Co]. cbn [map] in Es. set (l := newcomers rigid [] (generics u)) in *.
  assert (Dl : NoDup l) by apply newcomers_nodup. rewrite give_all, app_nil_r in Es. injection Es as Ee Em.
  destruct (counted_more e (length l) (deferred_type_variable_aliases e ++ combine l (map Var (seq (length (variables e)) (length l)))) C D) as [C' D']. rewrite <- Ee in C', D'.
  exists (fun i => option_map (fun k => (ids e + N.of_nat k)%N) (position i l)).
  assert (Lo : longer (variables e) (variables e')) by (rewrite Ee; eexists; reflexivity).
  split; [|split; [|split; [|split; [|split; [|split]]]]].
  - eapply copy_resolves; [exact Lo|exact R| |exact Co]. intros i Hi. subst m'. pose proof (lookup_pairs l (length (variables e)) [] i Dl) as LP. rewrite app_nil_r in LP. rewrite LP.
    destruct (position i l) as [k|] eqn:P; [|reflexivity]. exists (ids e + N.of_nat k)%N. split; [reflexivity|]. constructor. rewrite Ee. cbn [variables].
    assert (Lk : k < length l) by (apply nth_error_Some; rewrite (position_nth _ _ _ P); discriminate).
    rewrite nth_error_app2 by lia. replace (length (variables e) + k - length (variables e)) with k by lia. rewrite nth_error_map, numbers_nth by exact Lk. reflexivity.
  - intros i. assert (X : option_map (fun k => (ids e + N.of_nat k)%N) (position i l) <> None <-> position i l <> None) by (destruct (position i l); cbn; split; congruence).
    rewrite X, position_in. unfold l. rewrite newcomers_in. cbn. tauto.
  - intros i j k. destruct (position i l) as [x|] eqn:P; [|discriminate]. destruct (position j l) as [y|] eqn:Q; [|discriminate]. cbn. intros [= <-] [= Ek].
    assert (x = y) by lia. subst y. apply position_nth in P, Q. congruence.
  - intros i k. destruct (position i l) as [x|] eqn:P; [|discriminate]. cbn. intros [= <-]. apply position_nth in P. assert (x < length l) by (apply nth_error_Some; congruence). rewrite Ee. cbn. lia.
  - intros c v. apply longer_get. exact Lo.
  - intros c v L H. rewrite Ee in H. cbn in H. rewrite nth_error_app2, nth_error_map in H by exact L.
    destruct (nth_error (numbers (ids e) (length l)) (c - length (variables e))) as [k|] eqn:Nk; [|discriminate]. injection H as <-.
    assert (Lk : c - length (variables e) < length l) by (rewrite <- (numbers_length (length l) (ids e)); apply nth_error_Some; congruence).
    rewrite numbers_nth in Nk by exact Lk. injection Nk as <-. destruct (nth_error l (c - length (variables e))) as [i|] eqn:Ni; [|apply nth_error_None in Ni; lia].
    exists i. eexists. split; [reflexivity|]. destruct (position i l) as [x|] eqn:P; [|exfalso; apply nth_error_In in Ni; apply position_in in Ni; congruence].
    cbn. apply position_nth in P. assert (x = c - length (variables e)); [|congruence]. apply (proj1 (NoDup_nth_error l) Dl); [apply nth_error_Some; congruence|congruence].
  - split; [|split; assumption]. rewrite Ee. apply finite_more; [exact Fi|]. apply Forall_forall. intros v Hv. apply in_map_iff in Hv. destruct Hv as (k & <- & _). exact I.
Qed.
Print Assumptions C29_instances_are_fresh_copies.

Theorem C29_instantiation_ends rigid e m t u : resolves (variables e) t u ->
  exists enough r, forall fuel, enough <= fuel -> instantiate fuel rigid (e, m) t = Answer r.
Proof.
  intros R. destruct (steps_exist _ _ _ R) as [n S]. destruct (instantiate_settles rigid _ n t S (e, m) (longer_refl _)) as (k & o & Ne & H).
  pose proof (instantiate_spec rigid k (e, m) t u R) as X. rewrite H in X by lia. destruct o as [r| |]; [|contradiction|congruence]. exists k, r. exact H.
Qed.
Print Assumptions C29_instantiation_ends.

(** ** Generalisation *)
Theorem C29_generalisation e t u fuel t' e' : resolves (variables e) t u ->
  generalise fuel e t = Answer (t', e') ->
  e' = Env (variables e ++ map Generic (unbounds u)) (ids e) (deferred_type_variable_aliases e) /\
  closes (variables e) (variables e') t t' /\ resolves (variables e') t' (closed u) /\
  (well e -> well e').
Proof.
  intros R E. pose proof (generalise_spec' fuel e t u R) as X. rewrite E in X. destruct X as [Ee C]. split; [exact Ee|]. split; [exact C|]. split; [eapply closes_resolves; eassumption|].
  assert (G : forall c i, nth_error (variables e') c = Some (Unbound i) -> nth_error (variables e) c = Some (Unbound i)).
  { intros c i H. rewrite Ee in H. cbn in H. destruct (Nat.lt_ge_cases c (length (variables e))) as [L|L]; [rewrite nth_error_app1 in H by exact L; exact H|].
    rewrite nth_error_app2, nth_error_map in H by exact L. destruct (nth_error (unbounds u) _); discriminate. }
  intros (Fi & D & Co). split; [|split].
  - rewrite Ee. apply finite_more; [exact Fi|]. apply Forall_forall. intros v Hv. apply in_map_iff in Hv. destruct Hv as (k & <- & _). exact I.
  - intros c c' i H H'. eapply D; apply G; eassumption.
  - intros c i H. apply G in H. rewrite Ee. cbn. exact (Co c i H).
Qed.
Print Assumptions C29_generalisation.

Theorem C29_generalisation_ends e t u : resolves (variables e) t u ->
  exists enough r, forall fuel, enough <= fuel -> generalise fuel e t = Answer r.
Proof.
  intros R. destruct (steps_exist _ _ _ R) as [n S]. destruct (generalise_settles _ n t S e (longer_refl _)) as (k & o & Ne & H).
  pose proof (generalise_spec' k e t u R) as X. rewrite H in X by lia. destruct o as [r| |]; [|contradiction|congruence]. exists k, r. exact H.
Qed.
Print Assumptions C29_generalisation_ends.

(** A definition used somewhere has its own type with new variables: the uses do not influence
    each other nor the definition. *)
Theorem C29_uses_of_a_definition e t u k t1 e1 k' t2 e2 m2 : well e -> resolves (variables e) t u -> generics u = [] ->
  generalise k e t = Answer (t1, e1) -> instantiate k' (fun _ => false) (e1, []) t1 = Answer (t2, (e2, m2)) ->
  exists f : N -> N, resolves (variables e2) t2 (apply (fun i => TVar (f i)) u) /\
    (forall i j, In i (unbounds u) -> In j (unbounds u) -> f i = f j -> i = j) /\
    (forall i, In i (unbounds u) -> (ids e <= f i < ids e2)%N) /\
    (forall c v, nth_error (variables e) c = Some v -> nth_error (variables e2) c = Some v).
Proof.
  intros W R G E1 E2. destruct (C29_generalisation _ _ _ _ _ _ R E1) as (Ee & _ & R1 & W1).
  destruct (C29_instances_are_fresh_copies _ _ _ _ _ _ _ _ (W1 W) R1 E2) as (f & R2 & Df & Inj & Fr & Old & _).
  assert (De : forall i, In i (unbounds u) -> f i <> None) by (intros i Hi; apply Df; split; [apply generics_closed; right; exact Hi|reflexivity]).
  exists (fun i => match f i with Some j => j | None => i end). split; [|split; [|split]].
  - rewrite instance_closed in R2 by assumption. erewrite apply_ext; [exact R2|]. intros i _. cbn. destruct (f i); reflexivity.
  - intros i j Hi Hj. specialize (De i Hi) as Di. specialize (De j Hj) as Dj. destruct (f i) as [x|] eqn:Fi; [|congruence]. destruct (f j) as [y|] eqn:Fj; [|congruence]. intros ->. eapply Inj; eassumption.
  - intros i Hi. specialize (De i Hi). destruct (f i) as [x|] eqn:Fi; [|congruence]. specialize (Fr _ _ Fi). rewrite Ee in Fr. cbn in Fr. exact Fr.
  - intros c v H. apply Old. rewrite Ee. eapply longer_get; [eexists; reflexivity|exact H].
Qed.
Print Assumptions C29_uses_of_a_definition.

(** ** Function types *)
Theorem C50_function_types_match e t u arity fuel l r e' : well e -> resolves (variables e) t u ->
  match_fun_type fuel t arity e = Matches l r e' ->
  length l = arity /\ well e' /\
  exists a us w, solved (variables e) (variables e') a /\ Forall2 (resolves (variables e')) l us /\ resolves (variables e') r w /\
    apply a u = TFn us w /\
    forall b us' w', apply b u = TFn us' w' -> length us' = arity ->
      exists c, (forall i, (i < ids e)%N -> b i = apply c (a i)) /\ us' = map (apply c) us /\ w' = apply c w.
Proof.
  intros W R E. pose proof (match_fun_type_spec fuel t arity e u W R) as X. rewrite E in X. destruct X as (a & us & w & S & W' & L & F & Rr & Ea & M).
  split; [exact L|]. split; [exact W'|]. exists a, us, w. split; [exact S|]. split; [exact F|]. split; [exact Rr|]. split; [exact Ea|].
  intros b us' w' Eb Lu. destruct (M b us' w' Eb Lu) as (c & H1 & H2 & H3). exists c. split; [intros i Hi; symmetry; apply H1; exact Hi|]. split; congruence.
Qed.
Print Assumptions C50_function_types_match.
Theorem C50_function_types_fail e t u arity fuel err e' : well e -> resolves (variables e) t u ->
  match_fun_type fuel t arity e = Fails err e' ->
  e' = e /\ (forall b us w, apply b u = TFn us w -> length us <> arity) /\
  match err with
  | NotFn x => shown (variables e) t x /\ forall b us w, apply b u <> TFn us w
  | IncorrectArity expected given l r => given = arity /\
      exists us w, u = TFn us w /\ length us = expected /\ Forall2 (resolves (variables e)) l us /\ resolves (variables e) r w
  end.
Proof.
  intros W R E. pose proof (match_fun_type_spec fuel t arity e u W R) as X. rewrite E in X. destruct err as [ex gi l r|x]; cbn in X.
  - destruct X as (Ee & Eg & Ne & L & us & w & Eu & F & Rr). split; [exact Ee|]. pose proof (resolves_length _ _ _ F) as Lu. split.
    + intros b us' w' Eb. subst u. cbn in Eb. injection Eb as <- _. rewrite map_length. lia.
    + split; [exact Eg|]. exists us, w. split; [exact Eu|]. split; [lia|]. auto.
  - destruct X as (Ee & S & N). split; [exact Ee|]. split; [|auto]. intros b us w Eb. destruct (N _ _ _ Eb).
Qed.
Print Assumptions C50_function_types_fail.
Theorem C50_function_types_always_answer e t u arity : well e -> resolves (variables e) t u ->
  exists enough o, o <> MatchOutOfFuel /\ o <> MatchPanics /\ forall fuel, enough <= fuel -> match_fun_type fuel t arity e = o.
Proof.
  intros W R. destruct (steps_exist _ _ _ R) as [n S]. destruct (match_fun_type_settles arity e n t S) as (k & o & Ne & H). exists k, o. split; [exact Ne|]. split; [|exact H].
  intros ->. pose proof (match_fun_type_spec k t arity e u W R) as X. rewrite H in X by lia. exact X.
Qed.
Print Assumptions C50_function_types_always_answer.

(** Examples: fn(a, b, _, c) -> List(a) where a, b are generic, b rigid, _ unbound, c linked to a. *)
Definition listed (t : type) : type := Named 0%N (str "gleam") (str "List") [t] (Some 3%N).
Definition example_env : env := Env [Generic 5%N; Generic 6%N; Unbound 7%N; Link (Var 4); Generic 5%N] 8%N [].
Example ex_well : well example_env.
Proof.
  split; [|split].
  - intros c L. destruct c as [|[|[|[|[|c]]]]]; [eexists; apply resolves_generic; reflexivity|eexists; apply resolves_generic; reflexivity|eexists; apply resolves_unbound; reflexivity| |eexists; apply resolves_generic; reflexivity|cbn in L; lia].
    eexists. eapply resolves_link; [reflexivity|]. apply resolves_generic. reflexivity.
  - intros c c' i H H'. destruct c as [|[|[|[|[|[|c]]]]]]; try discriminate; destruct c' as [|[|[|[|[|[|c']]]]]]; try discriminate; reflexivity.
  - intros c i H. destruct c as [|[|[|[|[|[|c]]]]]]; try discriminate. injection H as <-. cbn. lia.
Qed.
Definition example_type : type := Fn [Var 0; Var 1; Var 2; Var 3] (listed (Var 0)).
Example ex_instantiate : instantiate 9 (N.eqb 6%N) (example_env, []) example_type =
  Answer (Fn [Var 5; Var 1; Var 2; Var 5] (listed (Var 5)),
   (Env [Generic 5%N; Generic 6%N; Unbound 7%N; Link (Var 4); Generic 5%N; Unbound 8%N] 9%N [(5%N, Var 5)], [(5%N, Var 5)])).
Proof. reflexivity. Qed.
Example ex_generalise : generalise 9 example_env example_type =
  Answer (Fn [Var 0; Var 1; Var 5; Var 4] (Named 0%N (str "gleam") (str "List") [Var 0] None),
   Env [Generic 5%N; Generic 6%N; Unbound 7%N; Link (Var 4); Generic 5%N; Generic 7%N] 8%N []).
Proof. reflexivity. Qed.
Example ex_match_variable : match_fun_type 9 (Var 2) 2 example_env =
  Matches [Var 5; Var 6] (Var 7)
   (Env [Generic 5%N; Generic 6%N; Link (Fn [Var 5; Var 6] (Var 7)); Link (Var 4); Generic 5%N; Unbound 8%N; Unbound 9%N; Unbound 10%N] 11%N []).
Proof. reflexivity. Qed.
Example ex_match_generic : match_fun_type 9 (Var 3) 2 example_env = Fails (NotFn (Var 4)) example_env.
Proof. reflexivity. Qed.
Example ex_match_arity : match_fun_type 9 example_type 1 example_env =
  Fails (IncorrectArity 4 1 [Var 0; Var 1; Var 2; Var 3] (listed (Var 0))) example_env.
Proof. reflexivity. Qed.
