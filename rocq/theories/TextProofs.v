From Coq Require Import NArith ZArith List Bool Lia Arith.
From Coq Require Import ZifyBool ZifyNat ZifyN.
From Verif Require Import Text.
Import ListNotations.
Open Scope N_scope.
Ltac Zify.zify_post_hook ::= Z.div_mod_to_equations.

Lemma text_eqb_eq a : forall b, text_eqb a b = true <-> a = b.
Proof.
  induction a as [|x a IH]; intros [|y b]; simpl; try (split; congruence).
  rewrite andb_true_iff, N.eqb_eq, IH. split; [intros []; congruence|intros [= -> ->]; auto].
Qed.
Lemma text_eqb_refl a : text_eqb a a = true.
Proof. now apply text_eqb_eq. Qed.
Lemma text_eqb_neq a b : text_eqb a b = false <-> a <> b.
Proof. rewrite <- text_eqb_eq. destruct (text_eqb a b); split; congruence. Qed.
Lemma text_eq_dec (a b : text) : {a = b} + {a <> b}.
Proof. apply list_eq_dec, N.eq_dec. Defined.

Lemma starts_with_spec p : forall s, starts_with p s = true <-> exists r, s = (p ++ r)%list.
Proof.
  induction p as [|x p IH]; intros s; simpl.
  - split; eauto.
  - destruct s as [|y s]; [split; [discriminate|intros [r H]; discriminate]|].
    rewrite andb_true_iff, N.eqb_eq, IH. split.
    + intros [-> [r ->]]. eauto.
    + intros [r [= -> ->]]. eauto.
Qed.

Lemma span_while_spec p s : forall a b, span_while p s = (a, b) ->
  s = (a ++ b)%list /\ Forall (fun c => p c = true) a /\ match b with [] => True | c :: _ => p c = false end.
Proof.
  induction s as [|c s IH]; simpl; intros a b H.
  - injection H as <- <-. auto.
  - destruct (p c) eqn:P.
    + destruct (span_while p s) as [a' b'] eqn:E. injection H as <- <-.
      destruct (IH _ _ eq_refl) as (-> & F & B). auto.
    + injection H as <- <-. simpl. auto.
Qed.

Lemma span_while_app p a b :
  Forall (fun c => p c = true) a -> match b with [] => True | c :: _ => p c = false end ->
  span_while p (a ++ b) = (a, b).
Proof.
  induction 1 as [|c a H _ IH]; intros B; simpl.
  - destruct b; simpl; auto. now rewrite B.
  - now rewrite H, (IH B).
Qed.

(** ** Decimal notation *)
Lemma decimal_value_app a b : decimal_value (a ++ b) =
  fold_left (fun acc c => 10 * acc + (c - 48)) b (decimal_value a).
Proof. unfold decimal_value. now rewrite fold_left_app. Qed.

Lemma decimal_fuel_value f : forall n, n < 2 ^ N.of_nat f -> decimal_value (decimal_fuel (S f) n) = n.
Proof.
  induction f as [|f IH]; intros n H.
  - assert (n = 0) by (change (2 ^ N.of_nat 0) with 1 in H; lia). subst. reflexivity.
  - remember (S f) as g. cbn [decimal_fuel]. destruct (N.ltb_spec n 10).
    + unfold decimal_value, digit. cbn [fold_left]. lia.
    + subst g. rewrite decimal_value_app, IH.
      * unfold digit. cbn [fold_left]. lia.
      * rewrite Nat2N.inj_succ, N.pow_succ_r' in H. lia.
Qed.

Lemma size_nat_bound n : n < 2 ^ N.of_nat (N.size_nat n).
Proof.
  rewrite <- (N2Nat.id (N.of_nat (N.size_nat n))), Nat2N.id.
  destruct n as [|p]; [reflexivity|].
  replace (N.of_nat (N.size_nat (N.pos p))) with (N.size (N.pos p)); [apply N.size_gt|].
  simpl. induction p; simpl; auto.
  - rewrite <- Pos.add_1_r. destruct (Pos.size_nat p); simpl in *; try discriminate. injection IHp as ->. now rewrite Pos.add_1_r.
  - rewrite <- Pos.add_1_r. destruct (Pos.size_nat p); simpl in *; try discriminate. injection IHp as ->. now rewrite Pos.add_1_r.
Qed.

Lemma decimal_value_decimal n : decimal_value (decimal n) = n.
Proof. apply decimal_fuel_value, size_nat_bound. Qed.

Lemma decimal_inj n m : decimal n = decimal m -> n = m.
Proof. intros H. rewrite <- (decimal_value_decimal n), H. apply decimal_value_decimal. Qed.

Lemma decimal_fuel_digits f : forall n, Forall (fun c => is_digit c = true) (decimal_fuel f n).
Proof.
  induction f as [|f IH]; intros n; cbn [decimal_fuel]; [constructor|].
  destruct (N.ltb_spec n 10).
  - constructor; [|constructor]. unfold is_digit, digit. lia.
  - apply Forall_app. split; [apply IH|]. constructor; [|constructor]. unfold is_digit, digit. lia.
Qed.
Lemma decimal_digits n : Forall (fun c => is_digit c = true) (decimal n).
Proof. apply decimal_fuel_digits. Qed.

Lemma decimal_fuel_first f : forall n, (0 < f)%nat -> n < 2 ^ N.of_nat f ->
  exists c r, decimal_fuel f n = c :: r /\ (c = 48 -> n = 0 /\ r = []).
Proof.
  induction f as [|f IH]; intros n Hf H; [lia|].
  cbn [decimal_fuel]. destruct (N.ltb_spec n 10).
  - exists (digit n), []. split; auto. unfold digit. intros. split; auto; lia.
  - rewrite Nat2N.inj_succ, N.pow_succ_r' in H.
    destruct (Nat.eq_dec f 0) as [->|F]; [change (2 ^ N.of_nat 0) with 1 in H; lia|].
    destruct (IH (n / 10)) as (c & r & E & Z); [lia|lia|].
    rewrite E. exists c, (r ++ [digit (n mod 10)])%list. split; auto.
    intros C. destruct (Z C). lia.
Qed.

Lemma decimal_first n : exists c r, decimal n = c :: r /\ (c = 48 -> n = 0 /\ r = []).
Proof.
  apply decimal_fuel_first; [lia|].
  eapply N.lt_le_trans; [apply size_nat_bound|]. apply N.pow_le_mono_r; lia.
Qed.

(** A digit string without a leading zero is the notation of its value. *)
Lemma fold_value_lower s : forall acc, acc <= fold_left (fun acc c => 10 * acc + (c - 48)) s acc.
Proof. induction s as [|c s IH]; intros acc; cbn [fold_left]; [lia|]. specialize (IH (10 * acc + (c - 48))). lia. Qed.

Lemma decimal_fuel_step f n d : n <> 0 -> d < 10 -> n < 2 ^ N.of_nat f ->
  decimal_fuel (S f) (10 * n + d) = (decimal_fuel f n ++ [digit d])%list.
Proof.
  intros. cbn [decimal_fuel]. destruct (N.ltb_spec (10 * n + d) 10); [lia|].
  replace ((10 * n + d) / 10) with n by lia. replace ((10 * n + d) mod 10) with d by lia. reflexivity.
Qed.

Lemma decimal_fuel_irrel f : forall g n, (0 < f)%nat -> (0 < g)%nat -> n < 2 ^ N.of_nat f -> n < 2 ^ N.of_nat g ->
  decimal_fuel f n = decimal_fuel g n.
Proof.
  induction f as [|f IH]; intros [|g] n F G Hf Hg; try lia. cbn [decimal_fuel].
  destruct (N.ltb_spec n 10); auto.
  rewrite Nat2N.inj_succ, N.pow_succ_r' in Hf, Hg. f_equal.
  assert (f <> 0)%nat by (intros ->; change (2 ^ N.of_nat 0) with 1 in Hf; lia).
  assert (g <> 0)%nat by (intros ->; change (2 ^ N.of_nat 0) with 1 in Hg; lia).
  apply IH; lia.
Qed.

Lemma decimal_step n d : n <> 0 -> d < 10 -> decimal (10 * n + d) = (decimal n ++ [digit d])%list.
Proof.
  intros N D. pose proof (size_nat_bound (10 * n + d)) as B. pose proof (size_nat_bound n) as B'.
  unfold decimal.
  rewrite (decimal_fuel_irrel _ (S (N.size_nat n + S (N.size_nat (10 * n + d)))) (10 * n + d)); try lia.
  2,3: (eapply N.lt_le_trans; [apply B|apply N.pow_le_mono_r; lia]).
  rewrite decimal_fuel_step; auto.
  2:{ eapply N.lt_le_trans; [apply B'|apply N.pow_le_mono_r; lia]. }
  f_equal. apply decimal_fuel_irrel; try lia.
  all: (eapply N.lt_le_trans; [apply B'|apply N.pow_le_mono_r; lia]).
Qed.

Lemma decimal_of_digits s c r :
  Forall (fun c => is_digit c = true) s -> s = c :: r -> c <> 48 -> decimal (decimal_value s) = s.
Proof.
  revert c r. induction s as [|x s IH] using rev_ind; intros c r F E C; [discriminate|].
  apply Forall_app in F. destruct F as [Fs Fx]. inversion Fx as [|? ? Hx]; subst.
  unfold is_digit in Hx.
  rewrite decimal_value_app. cbn [fold_left].
  destruct s as [|y s].
  - simpl in E. injection E as -> <-. unfold decimal_value; cbn [fold_left].
    replace (10 * 0 + (c - 48)) with (c - 48) by lia.
    unfold decimal. cbn [decimal_fuel]. destruct (N.ltb_spec (c - 48) 10); [|lia].
    unfold digit. replace (48 + (c - 48)) with c by lia. reflexivity.
  - simpl in E. injection E as -> E.
    rewrite decimal_step.
    + rewrite (IH c s); auto. unfold digit. replace (48 + (x - 48)) with x by lia. reflexivity.
    + unfold decimal_value. cbn [fold_left].
      pose proof (fold_value_lower s (10 * 0 + (c - 48))).
      inversion Fs as [|? ? Hc]; subst. unfold is_digit in Hc. lia.
    + lia.
Qed.
