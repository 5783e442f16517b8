(** Property C17: the order in which modules are compiled. *)
From Coq Require Import String List Permutation Relations Lia.
From Verif Require Import Text TextProofs DepTree DepTreeSpec DepTreeProofs.
Import ListNotations.

(** When ordering succeeds, the result is a rearrangement of the modules and every
    known dependency comes before its dependents. *)
Theorem C17_dependencies_come_first : forall inputs order,
  NoDup (map fst inputs) -> toposort_deps inputs = inl order ->
  Permutation order (map fst inputs) /\ forall m d, imports inputs m d -> comes_before d m order.
Proof. intros inputs order ND H. pose proof (toposort_deps_spec inputs ND) as T. now rewrite H in T. Qed.
Print Assumptions C17_dependencies_come_first.

(** When it fails, the modules reported are distinct and import each other in a loop. *)
Theorem C17_failure_reports_an_import_loop : forall inputs e,
  NoDup (map fst inputs) -> toposort_deps inputs = inr e ->
  exists l, e = Cycle l /\ import_loop inputs l.
Proof.
  intros inputs e ND H. pose proof (toposort_deps_spec inputs ND) as T. rewrite H in T.
  destruct e as [l|]; [eauto|contradiction].
Qed.
Print Assumptions C17_failure_reports_an_import_loop.

(** It fails exactly when there is a loop. *)
Theorem C17_succeeds_iff_no_loop : forall inputs, NoDup (map fst inputs) ->
  (exists order, toposort_deps inputs = inl order) <-> ~ exists l, import_loop inputs l.
Proof.
  intros inputs ND. pose proof (toposort_deps_spec inputs ND) as T. split.
  - intros [order H] [l L]. rewrite H in T. destruct T as [P O].
    assert (N : NoDup order) by (now rewrite P).
    assert (B : forall x y, imports inputs x y -> exists i j,
      nth_error order i = Some y /\ nth_error order j = Some x /\ i < j).
    { intros x y I. destruct (O x y I) as (a & b & c & ->). exists (length a), (length a + S (length b)).
      split; [|split; [|lia]].
      - rewrite nth_error_app2 by lia. now rewrite PeanoNat.Nat.sub_diag.
      - rewrite nth_error_app2 by lia. replace (length a + S (length b) - length a) with (S (length b)) by lia.
        simpl. rewrite nth_error_app2 by lia. now rewrite PeanoNat.Nat.sub_diag. }
    destruct l as [|first l]; [exact L|]. destruct L as [_ L].
    (* positions grow along the list, and from its last element back to the first *)
    assert (G : forall l x, imported_by_next (imports inputs) first (x :: l) ->
      exists i j, nth_error order i = Some x /\ nth_error order j = Some first /\ i < j).
    { clear l L. induction l as [|y l IH]; intros x I.
      - exact (B first x I).
      - destruct I as [I1 I2]. destruct (B y x I1) as (i & j & Hi & Hj & Lt).
        destruct (IH y I2) as (i' & j' & Hi' & Hj' & Lt'). exists i, j'. split; auto. split; auto.
        assert (j = i'); [|lia]. eapply NoDup_nth_error; [exact N| |congruence].
        apply nth_error_Some. congruence. }
    destruct (G l first L) as (i & j & Hi & Hj & Lt).
    assert (i = j); [|lia]. eapply NoDup_nth_error; [exact N| |congruence]. apply nth_error_Some. congruence.
  - intros NL. destruct (toposort_deps inputs) as [order|[l|]]; [eauto| |contradiction].
    destruct NL. eauto.
Qed.
Print Assumptions C17_succeeds_iff_no_loop.

Open Scope string_scope.
Example C17_example :
  let inputs := [entry "a" ["b"; "z"]; entry "c" []; entry "b" ["c"]] in
  NoDup (map fst inputs) /\ toposort_deps inputs = inl (map str ["c"; "b"; "a"])
  /\ imports inputs (str "a") (str "b").
Proof.
  cbv zeta. split; [|split; [reflexivity|]].
  - repeat constructor; simpl; intuition discriminate.
  - exists (map str ["b"; "z"]). split; [now left|]. split; [now left|]. simpl. auto.
Qed.
Example C17_loop_example :
  let inputs := [entry "a" ["b"]; entry "b" ["c"]; entry "c" ["b"]] in
  toposort_deps inputs = inr (Cycle (map str ["c"; "b"])) /\ import_loop inputs (map str ["c"; "b"]).
Proof.
  cbv zeta. split; [reflexivity|]. split; [repeat constructor; simpl; intuition discriminate|].
  split; [exists (map str ["c"]) | exists (map str ["b"])]; (split; [simpl; auto|split; [now left|simpl; auto]]).
Qed.
