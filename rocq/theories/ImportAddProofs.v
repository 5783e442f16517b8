(** Proofs about adding an import. *)
From Coq Require Import String Arith NArith List Bool Permutation Lia.
From Verif Require Import Text ImportAdd ImportAddSpec.
Import ListNotations.
Local Open Scope list_scope.
Local Open Scope nat_scope.

Lemma locations_after parts : forall p k s, Forall (fun p => body p <> []) parts -> In (k, s) (locations p parts) -> p <= fst s.
Proof.
  induction parts as [|d parts IH]; intros p k s B I; [destruct I|]. inversion B; subst. destruct I as [E|I].
  - injection E as _ <-. cbn. lia.
  - apply IH in I; [|assumption]. lia.
Qed.
Lemma in_kind k l s : In s (of_kind k l) <-> In (k, s) l.
Proof.
  unfold of_kind. rewrite in_map_iff. split.
  - intros ((j, t) & <- & I). apply filter_In in I as (I & E). cbn in E. apply eqb_prop in E as ->. exact I.
  - intro I. exists (k, s). split; [reflexivity|]. apply filter_In. split; [exact I|]. apply eqb_reflx.
Qed.
Lemma least_in l a : least l = Some a -> In a l.
Proof.
  revert a. induction l as [|b l IH]; intros a E; [discriminate E|]. cbn in E. destruct (least l) as [c|].
  - injection E as <-. destruct (at_most b c); [left; reflexivity|right; apply IH; reflexivity].
  - injection E as ->. left. reflexivity.
Qed.
Lemma least_first l a : In a l -> (forall b, In b l -> b = a \/ fst a < fst b) -> least l = Some a.
Proof.
  induction l as [|b l IH]; intros I F; [destruct I|]. cbn. destruct (least l) as [c|] eqn:E.
  - f_equal. pose proof (least_in _ _ E) as C.
    destruct (F b (or_introl eq_refl)) as [->|L].
    + destruct (F c (or_intror C)) as [->|L]; [destruct (at_most a a); reflexivity|]. unfold at_most.
      replace (fst a <? fst c) with true by (symmetry; apply Nat.ltb_lt; lia). reflexivity.
    + destruct I as [->|I]; [lia|]. assert (Some c = Some a) as K by (apply IH; [exact I|intros; apply F; right; assumption]).
      injection K as ->. unfold at_most. replace (fst b <? fst a) with false by (symmetry; apply Nat.ltb_ge; lia).
      replace (fst b =? fst a) with false by (symmetry; apply Nat.eqb_neq; lia). reflexivity.
  - destruct l as [|c l]; [destruct I as [->|[]]; reflexivity|]. cbn in E. destruct (least l); discriminate E.
Qed.
Lemma position_import d head p parts : located d head (p :: parts) -> is_import p = true ->
  position_of_first_definition_if_import d = Some (length head + length (attributes p)).
Proof.
  intros (B & I & O) K. unfold position_of_first_definition_if_import. inversion B as [|? ? B1 B2]; subst.
  set (s := (length head + length (attributes p), length head + length (attributes p) + length (body p))).
  assert (forall k t, In (k, t) (locations (length head) (p :: parts)) -> (k, t) = (true, s) \/ fst s < fst t) as F.
  { intros k t [E|J]; [left; rewrite <- E, K; reflexivity|right]. apply locations_after in J; [|exact B2]. cbn in J |- *.
    destruct (body p) eqn:E; [congruence|]. cbn in J. lia. }
  assert (least (imports d) = Some s) as ->.
  { apply least_first.
    - eapply Permutation_in; [apply Permutation_sym, I|]. apply in_kind. left. rewrite K. reflexivity.
    - intros b J. pose proof (Permutation_in _ I J) as J'. apply in_kind in J'. destruct (F _ _ J') as [E|L]; [left; congruence|right; exact L]. }
  assert (forallb (at_most s) (constants d ++ custom_types d ++ type_aliases d ++ functions d) = true) as ->; [|reflexivity].
  apply forallb_forall. intros b J. pose proof (Permutation_in _ O J) as J'. apply in_kind in J'.
  destruct (F _ _ J') as [E|L]; [discriminate E|]. unfold at_most. apply orb_true_iff. left. apply Nat.ltb_lt, L.
Qed.
Lemma position_other d head parts : located d head parts -> ~ first_is_import parts -> position_of_first_definition_if_import d = None.
Proof.
  intros (B & I & O) N. unfold position_of_first_definition_if_import. destruct (least (imports d)) as [a|] eqn:L; [|reflexivity].
  apply least_in in L. pose proof (Permutation_in _ I L) as J. apply in_kind in J. destruct parts as [|p parts]; [destruct J|].
  inversion B as [|? ? B1 B2]; subst. destruct (is_import p) eqn:K; [exfalso; apply N; exists p, parts; auto|].
  destruct J as [E|J]; [rewrite K in E; discriminate E|]. apply locations_after in J; [|exact B2].
  set (s := (length head + length (attributes p), length head + length (attributes p) + length (body p))).
  assert (In s (constants d ++ custom_types d ++ type_aliases d ++ functions d)) as S.
  { eapply Permutation_in; [apply Permutation_sym, O|]. apply in_kind. left. rewrite K. reflexivity. }
  destruct (forallb (at_most a) _) eqn:F; [|reflexivity]. exfalso. rewrite forallb_forall in F. specialize (F s S). unfold at_most in F. cbn in F.
  assert (0 < length (body p)) by (destruct (body p); [congruence|cbn; lia]).
  apply orb_true_iff in F as [F|F]; [apply Nat.ltb_lt in F; lia|]. apply andb_prop in F as (F & _). apply Nat.eqb_eq in F. lia.
Qed.
