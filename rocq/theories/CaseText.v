(** Tidy string literals: comparing their source text is comparing what they stand for. *)
From Coq Require Import ZArith NArith Bool String List Lia.
From Coq Require Import ZifyBool ZifyNat ZifyN.
From Verif Require Import Text Strings StringsSpec StringsProofs Bits Case BitsSpec CaseSpec.
Import ListNotations.
Local Open Scope nat_scope.

Definition enc : text -> text := flat_map tidy_piece.

Lemma tidy_piece_cases c :
  (exists e, tidy_piece c = [92; e]%N /\ piece [92; e]%N c) \/ (tidy_piece c = [c] /\ c <> 92%N).
Proof.
  unfold tidy_piece.
  destruct (N.eqb_spec c 10) as [->|]; [left; eexists; split; [reflexivity|constructor]|].
  destruct (N.eqb_spec c 13) as [->|]; [left; eexists; split; [reflexivity|constructor]|].
  destruct (N.eqb_spec c 12) as [->|]; [left; eexists; split; [reflexivity|constructor]|].
  destruct (N.eqb_spec c 9) as [->|]; [left; eexists; split; [reflexivity|constructor]|].
  destruct (N.eqb_spec c 34) as [->|]; [left; eexists; split; [reflexivity|constructor]|].
  destruct (N.eqb_spec c 92) as [->|]; [left; eexists; split; [reflexivity|constructor]|].
  right. split; [reflexivity|assumption].
Qed.

Lemma enc_literal m : literal (enc m) m.
Proof.
  induction m as [|c m IH]; [constructor|]. cbn. constructor; [|assumption].
  destruct (tidy_piece_cases c) as [(e & -> & P)|[-> P]]; [assumption|now constructor].
Qed.
Lemma text_of_enc m : text_of (enc m) = m.
Proof. unfold text_of. apply convert_literal, enc_literal. Qed.

Lemma tidy_piece_inj c d r s : tidy_piece c ++ r = tidy_piece d ++ s -> c = d /\ r = s.
Proof.
  unfold tidy_piece.
  repeat match goal with |- context[(?a =? ?b)%N] => destruct (N.eqb_spec a b) end; subst; cbn;
    intros H; inversion H; subst; auto; congruence.
Qed.
Lemma enc_inj m : forall n, enc m = enc n -> m = n.
Proof. intros n H. rewrite <- (text_of_enc m), <- (text_of_enc n). now f_equal. Qed.

Lemma strip_prefix_some p : forall s r, strip_prefix p s = Some r <-> s = p ++ r.
Proof.
  induction p as [|x p IH]; intros s r; cbn.
  - split; [now intros [= ->]|now intros ->].
  - destruct s as [|y s]; [split; discriminate|]. destruct (N.eqb_spec x y) as [->|].
    + rewrite IH. split; [now intros ->|now intros [= ->]].
    + split; [discriminate|congruence].
Qed.
Lemma strip_prefix_none p s : strip_prefix p s = None <-> forall r, s <> p ++ r.
Proof.
  destruct (strip_prefix p s) as [r|] eqn:E.
  - apply strip_prefix_some in E. split; [discriminate|]. intros H. destruct (H r E).
  - split; [|reflexivity]. intros _ r H. apply strip_prefix_some in H. congruence.
Qed.
Lemma starts_with_iff p s : starts_with p s = true <-> exists r, s = p ++ r.
Proof.
  revert s. induction p as [|x p IH]; intros s; cbn; [split; [eexists; reflexivity|auto]|].
  destruct s as [|y s]; [split; [discriminate|intros [r H]; discriminate]|].
  rewrite andb_true_iff, N.eqb_eq, IH. split.
  - intros [-> [r ->]]. now exists r.
  - intros [r [= -> ->]]. eauto.
Qed.
Lemma text_eqb_iff a : forall b, text_eqb a b = true <-> a = b.
Proof.
  induction a as [|x a IH]; intros [|y b]; cbn; try (split; congruence).
  rewrite andb_true_iff, N.eqb_eq, IH. split; [intros [-> ->]; auto|now intros [= -> ->]].
Qed.

Lemma enc_app a b : enc (a ++ b) = enc a ++ enc b.
Proof. apply flat_map_app. Qed.
Lemma enc_prefix p : forall s r, enc s = enc p ++ r -> exists q, s = p ++ q /\ r = enc q.
Proof.
  induction p as [|c p IH]; intros s r H; cbn in H; [now exists s|].
  destruct s as [|d s]; cbn in H.
  - destruct (tidy_piece_cases c) as [(e & E & _)|[E _]]; rewrite E in H; discriminate.
  - rewrite <- app_assoc in H. apply tidy_piece_inj in H as [-> H]. apply IH in H as (q & -> & ->). now exists q.
Qed.

Lemma tidy_enc s : tidy s <-> s = enc (text_of s).
Proof.
  split; [intros [m ->]; fold (enc m); now rewrite text_of_enc|]. intros H. now exists (text_of s).
Qed.
Lemma tidy_inj s t : tidy s -> tidy t -> text_of s = text_of t -> s = t.
Proof. intros [a ->] [b ->]. fold (enc a) (enc b). rewrite !text_of_enc. now intros ->. Qed.
Lemma tidy_strip p s r : tidy p -> tidy s -> s = p ++ r -> tidy r /\ text_of s = text_of p ++ text_of r.
Proof.
  intros [a ->] [b ->] H. fold (enc a) (enc b) in *. apply enc_prefix in H as (q & -> & ->).
  split; [now exists q|]. now rewrite !text_of_enc.
Qed.
Lemma tidy_prefix p s : tidy p -> tidy s -> ((exists r, s = p ++ r) <-> exists r, text_of s = text_of p ++ r).
Proof.
  intros Tp Ts. split; intros [r H].
  - destruct (tidy_strip p s r Tp Ts H) as [_ E]. eauto.
  - destruct Tp as [a ->], Ts as [b ->]. fold (enc a) (enc b) in *. rewrite !text_of_enc in H. subst.
    exists (enc r). apply enc_app.
Qed.
Lemma tidy_nil : tidy [].
Proof. now exists []. Qed.
Lemma tidy_text_nil s : tidy s -> text_of s = [] -> s = [].
Proof. intros T H. now apply tidy_inj; [|apply tidy_nil|]. Qed.
Lemma tidy_literal s m : tidy s -> (literal s m <-> m = text_of s).
Proof.
  intros [a ->]. fold (enc a). rewrite text_of_enc. split.
  - intros L. apply convert_literal in L. fold (text_of (enc a)) in L. rewrite text_of_enc in L. now symmetry.
  - intros ->. apply enc_literal.
Qed.
