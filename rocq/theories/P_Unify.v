(** C28: unification. *)
From Coq Require Import String ZArith NArith Arith Bool List Lia.
From Verif Require Import Text Unify UnifySpec UnifyProofs.
Import ListNotations.
Local Open Scope nat_scope.

(** Success: the types are equal, by the most general assignment. *)
Theorem C28_unified_types_are_equal st t1 t2 u1 u2 fuel st' :
  finite st -> distinct st -> resolves st t1 u1 -> resolves st t2 u2 ->
  unify fuel [] st t1 t2 = Ok st' ->
  exists a, solved st st' a /\ unifies a u1 u2 /\ (forall b, unifies b u1 u2 -> instance_of a b) /\
    finite st' /\ distinct st' /\ exists u, resolves st' t1 u /\ resolves st' t2 u.
Proof.
  intros F D R1 R2 E. pose proof (unify_spec fuel [] st t1 t2 u1 u2 D R1 R2 (around_nil st u2)) as X. rewrite E in X.
  destruct X as (a & A & U & M). exists a. split; [intros t u; apply (after_resolves _ _ _ A)|]. split; [exact U|].
  split; [intros b Hb; exists b; intros i; symmetry; apply M; exact Hb|].
  split; [eapply after_finite; eassumption|]. split; [eapply after_distinct; eassumption|].
  exists (apply a u1). split; [|rewrite U]; apply (after_resolves _ _ _ A); assumption.
Qed.
Print Assumptions C28_unified_types_are_equal.

(** Failure: nothing makes the types equal, and the error shows the two types; what was assigned
    before the failure leaves the store without cycles. *)
Theorem C28_failure_means_no_solution st t1 t2 u1 u2 fuel e st' :
  finite st -> distinct st -> resolves st t1 u1 -> resolves st t2 u2 ->
  unify fuel [] st t1 t2 = Err e st' ->
  (forall b, ~ unifies b u1 u2) /\
  (forall expected given s, e = CouldNotUnify expected given s -> shown st t1 expected /\ shown st t2 given) /\
  (exists a, solved st st' a) /\ finite st' /\ distinct st'.
Proof.
  intros F D R1 R2 E. pose proof (unify_spec fuel [] st t1 t2 u1 u2 D R1 R2 (around_nil st u2)) as X. rewrite E in X.
  destruct X as (a & A & N & B). split; [exact N|]. split; [intros x y s ->; exact B|].
  split; [exists a; intros t u; apply (after_resolves _ _ _ A)|]. split; [eapply after_finite; eassumption|eapply after_distinct; eassumption].
Qed.
Print Assumptions C28_failure_means_no_solution.

(** No variable is changed while it is being looked at. *)
Theorem C28_unify_never_panics st t1 t2 u1 u2 fuel : distinct st -> resolves st t1 u1 -> resolves st t2 u2 ->
  unify fuel [] st t1 t2 <> Panic.
Proof.
  intros D R1 R2 E. pose proof (unify_spec fuel [] st t1 t2 u1 u2 D R1 R2 (around_nil st u2)) as X. rewrite E in X. exact X.
Qed.
Print Assumptions C28_unify_never_panics.

Theorem C28_unify_ends st t1 t2 u1 u2 : distinct st -> resolves st t1 u1 -> resolves st t2 u2 ->
  exists enough o, o <> OutOfFuel /\ forall fuel, enough <= fuel -> unify fuel [] st t1 t2 = o.
Proof.
  intros D R1 R2. destruct (steps_exist _ _ _ R1) as [k1 K1]. destruct (steps_exist _ _ _ R2) as [k2 K2].
  exact (settles_unify _ _ _ [] st t1 t2 u1 u2 k1 k2 (le_n _) (le_n _) (le_n _) D R1 R2 (around_nil st u2) K1 K2).
Qed.
Print Assumptions C28_unify_ends.

Theorem C28_unify_succeeds_iff_a_solution_exists st t1 t2 u1 u2 :
  finite st -> distinct st -> resolves st t1 u1 -> resolves st t2 u2 ->
  ((exists b, unifies b u1 u2) <-> exists enough st', forall fuel, enough <= fuel -> unify fuel [] st t1 t2 = Ok st').
Proof.
  intros F D R1 R2. split.
  - intros [b U]. destruct (C28_unify_ends st t1 t2 u1 u2 D R1 R2) as (n & o & Ne & H). exists n.
    destruct o as [st'|e st'| |]; [exists st'; exact H| | |congruence].
    + destruct (C28_failure_means_no_solution _ _ _ _ _ _ _ _ F D R1 R2 (H n (le_n n))) as [N _]. destruct (N b U).
    + destruct (C28_unify_never_panics _ _ _ _ _ n D R1 R2 (H n (le_n n))).
  - intros (n & st' & H). destruct (C28_unified_types_are_equal _ _ _ _ _ _ _ F D R1 R2 (H n (le_n n))) as (a & _ & U & _). exists a. exact U.
Qed.
Print Assumptions C28_unify_succeeds_iff_a_solution_exists.

(** Examples: three unbound variables, one link and one generic variable. *)
Definition named (n : string) (l : list type) (v : option N) : type := Named 0%N (str "gleam") (str n) l v.
Definition int := named "Int" [] None.
Definition listed t := named "List" [t] None.
Definition example_store : store := [Unbound 10%N; Unbound 11%N; Unbound 12%N; Link (Var 1); Generic 13%N].
Example ex_store_finite : finite example_store.
Proof.
  intros c L. destruct c as [|[|[|[|[|c]]]]]; [eexists; apply resolves_unbound; reflexivity|eexists; apply resolves_unbound; reflexivity|eexists; apply resolves_unbound; reflexivity| |eexists; apply resolves_generic; reflexivity|cbn in L; lia].
  eexists. eapply resolves_link; [reflexivity|]. apply resolves_unbound. reflexivity.
Qed.
Example ex_store_distinct : distinct example_store.
Proof.
  intros c c' id H H'. destruct c as [|[|[|[|[|[|c]]]]]]; try discriminate; destruct c' as [|[|[|[|[|[|c']]]]]]; try discriminate; cbn in *; congruence.
Qed.
(** fn(a, List(b)) -> Int with fn(List(c), a) -> d, where d is b: both are
    fn(List(Int), List(Int)) -> Int afterwards. *)
Example ex_unify_fn :
  unify 20 [] example_store (Fn [Var 0; listed (Var 1)] int) (Fn [listed (Var 2); Var 0] (Var 3)) =
  Ok [Link (listed (Var 2)); Link (Var 2); Link int; Link (Var 1); Generic 13%N].
Proof. vm_compute. reflexivity. Qed.
(** a with List(a), through a link. *)
Example ex_unify_cycle : unify 20 [] example_store (Var 3) (listed (Var 1)) = Err RecursiveType example_store.
Proof. vm_compute. reflexivity. Qed.
(** #(a, Int) with #(Int, List(a)): the first element was unified before the failure. *)
Example ex_unify_failure :
  unify 20 [] example_store (Tuple [Var 0; int]) (Tuple [int; listed (Var 0)]) =
  Err (CouldNotUnify (Tuple [Var 0; int]) (Tuple [int; listed (Var 0)]) None) [Link int; Unbound 11%N; Unbound 12%N; Link (Var 1); Generic 13%N].
Proof. vm_compute. reflexivity. Qed.
(** A generic variable is equal only to itself; an unbound variable may become it. *)
Example ex_unify_generic :
  (unify 20 [] example_store (Var 4) int, unify 20 [] example_store (listed (Var 4)) (listed (Var 3))) =
  (Err (CouldNotUnify (Var 4) int None) example_store, Ok [Unbound 10%N; Generic 13%N; Unbound 12%N; Link (Var 1); Generic 13%N]).
Proof. vm_compute. reflexivity. Qed.
(** The variant inferred for a value is forgotten when the type is shared. *)
Example ex_unify_variant :
  unify 20 [] example_store (Var 0) (named "Bool" [] (Some 1%N)) = Ok [Link (named "Bool" [] None); Unbound 11%N; Unbound 12%N; Link (Var 1); Generic 13%N].
Proof. vm_compute. reflexivity. Qed.
(** Two variables with one number are taken for the same variable. *)
Example ex_unify_not_distinct : unify 20 [] [Unbound 1%N; Unbound 1%N] (Var 0) (Var 1) = Ok [Unbound 1%N; Unbound 1%N].
Proof. vm_compute. reflexivity. Qed.
