(** The whole compilation of a [case]: registering the patterns, the invariants of the first
    branches, and what the compiled tree runs. *)
From Coq Require Import ZArith NArith Bool List Lia Permutation.
From Verif Require Import Text Strings StringsSpec StringsProofs Bits BitsSpec BitsProofs BitsMatchProofs.
From Verif Require Import Case CaseSpec CaseText CasePure CaseSem CaseStatic CaseMove CaseCompile CaseRefine CaseSource.
Import ListNotations.
Local Open Scope nat_scope.

(** ** Registering patterns *)
Definition range (lo hi k : nat) : Prop := lo <= k < hi.

Lemma sdec_grow lo hi lo' hi' a b i t : sdec (range lo hi) a i t -> hi <= length a -> lo' <= lo -> hi <= hi' -> sdec (range lo' hi') (a ++ b) i t.
Proof.
  intros D L1 L2 L3. eapply sdec_frame; [|exact D]. intros k [K1 K2]. split; [split; lia|]. apply nth_error_app1. lia.
Qed.

Definition shared (p : source) : Prop := forall a i a', register p a = (i, a') ->
  exists b, a' = a ++ b /\ sdec (range (length a) (length a')) a' i (tree_of p).
Definition node (p : source) : Prop := forall a i a', register p a = (i, a') ->
  exists b x q, a' = (a ++ b) ++ [x] /\ i = length (a ++ b) /\ tree_of p = T q /\
    prel (sdec (range (length a) (length (a ++ b))) (a ++ b)) x q /\ ordered (fun j => j < i) x.

Fixpoint register_all (ps : list source) (a : arena) : list pid * arena :=
  match ps with
  | [] => ([], a)
  | p :: ps => let '(i, a) := register p a in let '(is, a) := register_all ps a in (i :: is, a)
  end.
Lemma register_tuple ps a : register (TPTuple ps) a = let '(is, a) := register_all ps a in alloc (ATuple is) a.
Proof. reflexivity. Qed.
Lemma register_constructor i u n m ps a : register (TPConstructor i u n m ps) a = let '(is, a) := register_all ps a in alloc (AVariant i u n m is) a.
Proof. reflexivity. Qed.
Lemma register_cons p ps tail a : register (TPList (p :: ps) tail) a =
  let '(l, a) := register (TPList ps tail) a in let '(i, a) := register p a in alloc (ANonEmptyList i l) a.
Proof. cbn [register]. destruct (match tail with Some p0 => register p0 a | None => alloc AEmptyList a end). reflexivity. Qed.

Lemma register_all_spec ps : Forall shared ps -> forall a is a', register_all ps a = (is, a') ->
  exists b, a' = a ++ b /\ Forall2 (sdec (range (length a) (length a')) a') is (map tree_of ps).
Proof.
  induction 1 as [|p ps H F IH]; intros a is a' E; cbn in E.
  - injection E as <- <-. exists []. split; [now rewrite app_nil_r|constructor].
  - destruct (register p a) as [i a1] eqn:E1. destruct (register_all ps a1) as [is1 a2] eqn:E2. injection E as <- <-.
    destruct (H a i a1 E1) as (b1 & -> & D1). destruct (IH _ _ _ E2) as (b2 & -> & D2).
    exists (b1 ++ b2). split; [now rewrite app_assoc|]. cbn [map]. rewrite !app_length in *. constructor.
    + eapply sdec_grow; [exact D1| | |]; rewrite ?app_length; lia.
    + eapply Forall2_impl_in; [exact D2|]. intros x y _ D. eapply sdec_frame; [|exact D]. intros k [K1 K2]. split; [split; lia|reflexivity].
Qed.

Lemma alloc_node p x q a : alloc x a = register p a -> tree_of p = T q -> prel (sdec (range (length a) (length a)) a) x q ->
  ordered (fun j => j < length a) x -> forall i a', register p a = (i, a') ->
  exists b x q, a' = (a ++ b) ++ [x] /\ i = length (a ++ b) /\ tree_of p = T q /\
    prel (sdec (range (length a) (length (a ++ b))) (a ++ b)) x q /\ ordered (fun j => j < i) x.
Proof.
  intros E TR P O i a' R. rewrite <- E in R. injection R as <- <-. exists [], x, q. rewrite app_nil_r. auto.
Qed.

Lemma node_of p : p <> TPInvalid -> Forall shared (subsources p) -> (forall q ps tail, p = TPList (q :: ps) tail -> shared (TPList ps tail)) ->
  (forall q, p <> TPList [] (Some q)) -> node p.
Proof.
  intros NI F FL NT a. destruct p as [| |z|f|s|n|n p|ps|ps tail|j u n m ps|segs|s l r]; cbn [subsources] in F.
  - congruence.
  - apply (alloc_node TPDiscard ADiscard ADiscard); try reflexivity; constructor.
  - apply (alloc_node (TPInt z) (AInt z) (AInt z)); try reflexivity; constructor.
  - apply (alloc_node (TPFloat f) (AFloat f) (AFloat f)); try reflexivity; constructor.
  - apply (alloc_node (TPString s) (AString s) (AString s)); try reflexivity; constructor.
  - apply (alloc_node (TPVariable n) (AVariable n) (AVariable n)); try reflexivity; constructor.
  - intros i a' R. cbn [register] in R. destruct (register p a) as [k a1] eqn:E. injection R as <- <-.
    inversion F as [|? ? H _]; subst. destruct (H a k a1 E) as (b & -> & D).
    exists b, (AAssign n k), (AAssign n (tree_of p)). repeat split; [now constructor|]. cbn. inversion D as [? ? ? [_ L]]; subst. exact L.
  - intros i a' R. rewrite register_tuple in R. destruct (register_all ps a) as [is a1] eqn:E. injection R as <- <-.
    destruct (register_all_spec ps F a is a1 E) as (b & -> & D). exists b, (ATuple is), (ATuple (map tree_of ps)). repeat split. now constructor.
  - destruct ps as [|p ps].
    + destruct tail as [q|]; [destruct (NT q eq_refl)|].
      apply (alloc_node (TPList [] None) AEmptyList AEmptyList); try reflexivity; constructor.
    + intros i a' R. rewrite register_cons in R. destruct (register (TPList ps tail) a) as [l a1] eqn:E1. destruct (register p a1) as [k a2] eqn:E2. injection R as <- <-.
      destruct (FL p ps tail eq_refl a l a1 E1) as (b1 & -> & D1). inversion F as [|? ? H _]; subst.
      destruct (H _ k a2 E2) as (b2 & -> & D2).
      exists (b1 ++ b2), (ANonEmptyList k l), (ANonEmptyList (tree_of p) (tree_of (TPList ps tail))). rewrite !app_assoc. repeat split.
      rewrite !app_length in *. constructor.
      * eapply sdec_frame; [|exact D2]. intros x [K1 K2]. split; [split; lia|reflexivity].
      * eapply sdec_grow; [exact D1| | |]; rewrite ?app_length; lia.
  - intros i a' R. rewrite register_constructor in R. destruct (register_all ps a) as [is a1] eqn:E. injection R as <- <-.
    destruct (register_all_spec ps F a is a1 E) as (b & -> & D). exists b, (AVariant j u n m is), (AVariant j u n m (map tree_of ps)). repeat split. now constructor.
  - apply (alloc_node (TPBitArray segs) (ABitArray (bit_array_to_tests segs)) (ABitArray (bit_array_to_tests segs))); try reflexivity; constructor.
  - intros i a' R. cbn [register] in R. unfold alloc in R. injection R as <- <-.
    set (x := match r with Some n => AVariable n | None => @ADiscard pid end).
    exists [x], (AStringPrefix s l (length a)), (AStringPrefix s l (T match r with Some n => AVariable n | None => ADiscard end)).
    repeat split. constructor. rewrite app_length. cbn [length].
    apply (sdec_node _ _ (length a) x); [split; lia|rewrite nth_error_app2, Nat.sub_diag by lia; reflexivity|subst x; destruct r; exact I|subst x; destruct r; exact I|].
    subst x. destruct r; constructor.
Qed.

Lemma node_shared p : node p -> (forall a i b x, register p a = (i, (a ++ b) ++ [x]) -> steady x) -> shared p.
Proof.
  intros N ST a i a' R. destruct (N a i a' R) as (b & x & q & -> & -> & -> & P & O). exists (b ++ [x]). split; [now rewrite app_assoc|].
  apply (sdec_node _ _ _ x); [split; rewrite ?app_length; cbn; lia|rewrite nth_error_app2, Nat.sub_diag by lia; reflexivity|eapply ST; eassumption|assumption|].
  eapply prel_mono; [|exact P]. intros k t D. eapply sdec_grow; [exact D| | |]; rewrite ?app_length; cbn; lia.
Qed.

Section Register.
  Context (env : environment) (outside : text -> Z).
  Notation pattern_type := (pattern_type env).

  Lemma tests_settled segs : valid_segments segs -> (forall s, segs = [s] -> takes_rest s = false) -> settled_front (bit_array_to_tests segs).
  Proof.
    intros V R. destruct segs as [|s segs]; [reflexivity|]. cbn [bit_array_to_tests segments_loop]. unfold segment_tests.
    assert (takes_rest s = false) as TR by (destruct segs; [now apply R|apply V]).
    assert (valid_segment s) as Vs by (destruct segs; cbn in V; tauto).
    rewrite <- (takes_rest_size s []) in TR by assumption.
    destruct (segment_size s []) as [z|x u|x y o| |]; try discriminate;
      (match goal with |- context[can_be_negative ?e] => destruct (can_be_negative e) end; reflexivity).
  Qed.

  Lemma list_shared ps tail : Forall shared ps -> shared (TPList [] tail) -> shared (TPList ps tail).
  Proof.
    intros F T. induction F as [|p ps H F IH]; [assumption|]. apply node_shared.
    - intros a i a' R. rewrite register_cons in R. destruct (register (TPList ps tail) a) as [l a1] eqn:E1. destruct (register p a1) as [k a2] eqn:E2. injection R as <- <-.
      destruct (IH a l a1 E1) as (b1 & -> & D1). destruct (H _ k a2 E2) as (b2 & -> & D2).
      exists (b1 ++ b2), (ANonEmptyList k l), (ANonEmptyList (tree_of p) (tree_of (TPList ps tail))). rewrite !app_assoc. repeat split.
      rewrite !app_length in *. constructor.
      + eapply sdec_frame; [|exact D2]. intros x [K1 K2]. split; [split; lia|reflexivity].
      + eapply sdec_grow; [exact D1| | |]; rewrite ?app_length; lia.
    - intros a i b x R. rewrite register_cons in R. destruct (register (TPList ps tail) a) as [l a1]. destruct (register p a1) as [k a2]. injection R as _ E.
      apply app_inj_tail in E. destruct E as [_ <-]. exact I.
  Qed.

  Lemma last_node {A} (a b : list A) x y : a ++ [x] = b ++ [y] -> x = y.
  Proof. intros E. apply app_inj_tail in E. tauto. Qed.

  Lemma discard_shared : shared TPDiscard.
  Proof.
    apply node_shared; [apply node_of; [discriminate|constructor|discriminate|discriminate]|].
    intros a i b x R. cbn in R. injection R as _ E. apply last_node in E. now subst.
  Qed.
  Lemma variable_shared n : shared (TPVariable n).
  Proof.
    apply node_shared; [apply node_of; [discriminate|constructor|discriminate|discriminate]|].
    intros a i b x R. cbn in R. injection R as _ E. apply last_node in E. now subst.
  Qed.

  Lemma nested_shared p : forall ty, pattern_type ty p -> simple outside true p -> shared p.
  Proof.
    induction p as [p IH] using source_ind'. intros ty TY SI.
    assert (forall ps ts, Forall (fun p => forall ty, pattern_type ty p -> simple outside true p -> shared p) ps ->
      Forall2 pattern_type ts ps -> Forall (simple outside true) ps -> Forall shared ps) as SUBS.
    { intros ps ts A F. induction F; intros B; [constructor|]. inversion A; inversion B; subst. constructor; eauto. }
    assert (forall ps t, Forall (fun p => forall ty, pattern_type ty p -> simple outside true p -> shared p) ps ->
      Forall (pattern_type t) ps -> Forall (simple outside true) ps -> Forall shared ps) as SAME.
    { intros ps t A F. induction F; intros B; [constructor|]. inversion A; inversion B; subst. constructor; eauto. }
    destruct TY as [t|t n|t n p TY|z|f|s m L|s m l r L|segs V|ts ps F|t ps F|t ps F|t ps n F|m n args inferred tv i k used name module ps G O N J F];
      cbn [subsources] in IH.
    - apply discard_shared.
    - apply variable_shared.
    - inversion IH as [|? ? H _]; inversion SI; subst.
      apply node_shared; [apply node_of; [discriminate|constructor; [eauto|constructor]|discriminate|discriminate]|].
      intros a i b x R. cbn in R. destruct (register p a). injection R as _ E. apply last_node in E. now subst.
    - apply node_shared; [apply node_of; [discriminate|constructor|discriminate|discriminate]|].
      intros a i b x R. cbn in R. injection R as _ E. apply last_node in E. now subst.
    - apply node_shared; [apply node_of; [discriminate|constructor|discriminate|discriminate]|].
      intros a i b x R. cbn in R. injection R as _ E. apply last_node in E. now subst.
    - apply node_shared; [apply node_of; [discriminate|constructor|discriminate|discriminate]|].
      intros a i b x R. cbn in R. injection R as _ E. apply last_node in E. now subst.
    - inversion SI as [| | | | | |? ? ? ? TD LN| | | |]; subst. rewrite (LN eq_refl) in *.
      apply node_shared; [apply node_of; [discriminate|constructor|discriminate|discriminate]|].
      intros a i b x R. cbn [register] in R. unfold alloc in R. injection R as _ E. apply last_node in E. now subst.
    - inversion SI as [| | | | | | |? ? P FI S R| | |]; subst.
      apply node_shared; [apply node_of; [discriminate|constructor|discriminate|discriminate]|].
      intros a i b x RE. cbn in RE. injection RE as _ E. apply last_node in E. subst. cbn. apply tests_settled; auto.
    - inversion SI; subst. apply node_shared; [apply node_of; [discriminate|cbn; eauto|discriminate|discriminate]|].
      intros a i b x R. rewrite register_tuple in R. destruct (register_all ps a). injection R as _ E. apply last_node in E. now subst.
    - inversion SI; subst. rewrite app_nil_r in IH. apply list_shared; [eauto|].
      apply node_shared; [apply node_of; [discriminate|constructor|discriminate|discriminate]|].
      intros a i b x R. cbn in R. injection R as _ E. apply last_node in E. now subst.
    - inversion SI; subst. apply Forall_app in IH. destruct IH as [IH _]. apply list_shared; [eauto|exact discard_shared].
    - inversion SI; subst. apply Forall_app in IH. destruct IH as [IH _]. apply list_shared; [eauto|exact (variable_shared n)].
    - inversion SI; subst. apply node_shared; [apply node_of; [discriminate|cbn; eauto|discriminate|discriminate]|].
      intros a i' b x R. rewrite register_constructor in R. destruct (register_all ps a). injection R as _ E. apply last_node in E. now subst.
  Qed.

  (** At the top the last node of the chain of aliases is private. *)
  Definition private_of (p : source) : Prop := forall a i a', register p a = (i, a') ->
    exists b j, a' = a ++ b /\ range (length a) (length a') j /\ i < length a' /\
      udec (fun k => range (length a) (length a') k /\ ~ In k [j]) a' i (tree_of p) j.
  Lemma node_private p : node p -> (forall n q, p <> TPAssign n q) ->
    (forall a i b x n k, register p a = (i, (a ++ b) ++ [x]) -> x <> AAssign n k) -> private_of p.
  Proof.
    intros N NA ST a i a' R. destruct (N a i a' R) as (b & x & q & -> & -> & -> & P & O). exists (b ++ [x]), (length (a ++ b)).
    split; [now rewrite app_assoc|]. split; [split; rewrite ?app_length; cbn; lia|]. split; [rewrite !app_length; cbn; lia|].
    apply (udec_here _ _ _ x); [rewrite nth_error_app2, Nat.sub_diag by lia; reflexivity|eauto|].
    eapply prel_mono; [|exact P]. intros k t D. eapply sdec_frame; [|exact D]. intros y [K1 K2]. split; [|now rewrite nth_error_app1].
    split; [split; rewrite ?app_length in *; cbn; lia|]. intros [E|[]]. lia.
  Qed.
  Lemma top_private p : forall ty, pattern_type ty p -> simple outside false p -> private_of p.
  Proof.
    induction p as [p IH] using source_ind'. intros ty TY SI.
    assert (forall ps ts, Forall2 pattern_type ts ps -> Forall (simple outside true) ps -> Forall shared ps) as SUBS.
    { clear. intros ps ts F. induction F; intros B; [constructor|]. inversion B; subst. constructor; [eapply nested_shared; eassumption|auto]. }
    assert (forall ps t, Forall (pattern_type t) ps -> Forall (simple outside true) ps -> Forall shared ps) as SAME.
    { clear. intros ps t F. induction F; intros B; [constructor|]. inversion B; subst. constructor; [eapply nested_shared; eassumption|auto]. }
    assert (forall x p ps tail, Forall shared (p :: ps) -> shared (TPList [] tail) -> x = TPList (p :: ps) tail -> private_of x) as LIST.
    { intros x p0 ps tail F T ->. inversion F as [|? ? H F']; subst. apply node_private; [|discriminate|].
      - intros a i a' R. rewrite register_cons in R. destruct (register (TPList ps tail) a) as [l a1] eqn:E1. destruct (register p0 a1) as [k a2] eqn:E2. injection R as <- <-.
        destruct (list_shared ps tail F' T a l a1 E1) as (b1 & -> & D1). destruct (H _ k a2 E2) as (b2 & -> & D2).
        exists (b1 ++ b2), (ANonEmptyList k l), (ANonEmptyList (tree_of p0) (tree_of (TPList ps tail))). rewrite !app_assoc. repeat split.
        rewrite !app_length in *. constructor.
        + eapply sdec_frame; [|exact D2]. intros x [K1 K2]. split; [split; lia|reflexivity].
        + eapply sdec_grow; [exact D1| | |]; rewrite ?app_length; lia.
      - intros a i b x n k R. rewrite register_cons in R. destruct (register (TPList ps tail) a) as [l a1]. destruct (register p0 a1). injection R as _ E.
        apply last_node in E. subst x. discriminate. }
    assert (private_of TPDiscard) as PD.
    { apply node_private; [apply node_of; [discriminate|constructor|discriminate|discriminate]|discriminate|].
      intros a i b x n k R. cbn in R. injection R as _ E. apply last_node in E. subst x. discriminate. }
    assert (forall n, private_of (TPVariable n)) as PV.
    { intros n0. apply node_private; [apply node_of; [discriminate|constructor|discriminate|discriminate]|discriminate|].
      intros a i b x n k R. cbn in R. injection R as _ E. apply last_node in E. subst x. discriminate. }
    destruct TY as [t|t n|t n p TY|z|f|s m L|s m l r L|segs V|ts ps F|t ps F|t ps F|t ps n F|m n args inferred tv i k used name module ps G O N J F];
      cbn [subsources] in IH.
    - exact PD.
    - apply PV.
    - inversion IH as [|? ? H _]; inversion SI as [| |? ? ? SI'| | | | | | | |]; subst. specialize (H t TY SI').
      intros a i a' R. cbn [register] in R. destruct (register p a) as [k a1] eqn:E. injection R as <- <-.
      destruct (H a k a1 E) as (b & j & -> & J & LK & U). exists (b ++ [AAssign n k]), j.
      split; [now rewrite app_assoc|]. unfold range in *. rewrite !app_length in *. cbn [length]. split; [lia|]. split; [lia|]. cbn [tree_of].
      apply (udec_assign _ _ _ n k).
      + rewrite nth_error_app2 by (rewrite app_length; lia). rewrite app_length, Nat.sub_diag. reflexivity.
      + lia.
      + eapply udec_frame; [| |exact U].
        * intros y [K1 K2]. split; [split; [lia|assumption]|]. rewrite nth_error_app1 by (rewrite app_length; lia). reflexivity.
        * rewrite nth_error_app1 by (rewrite app_length; lia). reflexivity.
      + split; [lia|]. intros [E'|[]]. lia.
    - apply node_private; [apply node_of; [discriminate|constructor|discriminate|discriminate]|discriminate|].
      intros a i b x n k R. cbn in R. injection R as _ E. apply last_node in E. subst x. discriminate.
    - apply node_private; [apply node_of; [discriminate|constructor|discriminate|discriminate]|discriminate|].
      intros a i b x n k R. cbn in R. injection R as _ E. apply last_node in E. subst x. discriminate.
    - apply node_private; [apply node_of; [discriminate|constructor|discriminate|discriminate]|discriminate|].
      intros a i b x n k R. cbn in R. injection R as _ E. apply last_node in E. subst x. discriminate.
    - apply node_private; [apply node_of; [discriminate|constructor|discriminate|discriminate]|discriminate|].
      intros a i b x n k R. cbn [register] in R. unfold alloc in R. injection R as _ E. apply last_node in E. subst x. discriminate.
    - apply node_private; [apply node_of; [discriminate|constructor|discriminate|discriminate]|discriminate|].
      intros a i b x n k R. cbn in R. injection R as _ E. apply last_node in E. subst x. discriminate.
    - inversion SI; subst. apply node_private; [apply node_of; [discriminate|cbn; eauto|discriminate|discriminate]|discriminate|].
      intros a i b x n k R. rewrite register_tuple in R. destruct (register_all ps a). injection R as _ E. apply last_node in E. subst x. discriminate.
    - inversion SI; subst. destruct ps as [|p ps].
      + apply node_private; [apply node_of; [discriminate|constructor|discriminate|discriminate]|discriminate|].
        intros a i b x n k R. cbn in R. injection R as _ E. apply last_node in E. subst x. discriminate.
      + eapply LIST; [eapply SAME; eassumption| |reflexivity].
        apply node_shared; [apply node_of; [discriminate|constructor|discriminate|discriminate]|].
        intros a i b x R. cbn in R. injection R as _ E. apply last_node in E. now subst.
    - inversion SI; subst. destruct ps as [|p ps]; [exact PD|]. apply (LIST _ p ps (Some TPDiscard)); [eapply SAME; eassumption|exact discard_shared|reflexivity].
    - inversion SI; subst. destruct ps as [|p ps]; [exact (PV n)|]. apply (LIST _ p ps (Some (TPVariable n))); [eapply SAME; eassumption|exact (variable_shared n)|reflexivity].
    - inversion SI; subst. apply node_private; [apply node_of; [discriminate|cbn; eauto|discriminate|discriminate]|discriminate|].
      intros a i' b x n' k' R. rewrite register_constructor in R. destruct (register_all ps a). injection R as _ E. apply last_node in E. subst x. discriminate.
  Qed.
End Register.

Definition free (lo hi : nat) (P : list pid) (k : nat) : Prop := range lo hi k /\ ~ In k P.
Definition placed (lo hi : nat) (P : list pid) : Prop := NoDup P /\ forall k, In k P -> range lo hi k.
Lemma placed_nil lo hi : placed lo hi [].
Proof. split; [constructor|intros k []]. Qed.
Lemma placed_app lo mid hi P Q : placed lo mid P -> placed mid hi Q -> lo <= mid <= hi -> placed lo hi (P ++ Q).
Proof.
  intros [N1 R1] [N2 R2] L. split.
  - apply nodup_app. split; [assumption|]. split; [assumption|]. intros k I1 I2. apply R1 in I1. apply R2 in I2. unfold range in *. lia.
  - intros k I. apply in_app_iff in I. destruct I as [I|I]; [apply R1 in I|apply R2 in I]; unfold range in *; lia.
Qed.
Lemma free_left lo mid hi P Q k : free lo mid P k -> placed mid hi Q -> mid <= hi -> free lo hi (P ++ Q) k.
Proof.
  intros [R N] [_ PQ] L. split; [unfold range in *; lia|]. rewrite in_app_iff. intros [I|I]; [contradiction|]. apply PQ in I. unfold range in *. lia.
Qed.
Lemma free_right lo mid hi P Q k : free mid hi Q k -> placed lo mid P -> lo <= mid -> free lo hi (P ++ Q) k.
Proof.
  intros [R N] [_ PP] L. split; [unfold range in *; lia|]. rewrite in_app_iff. intros [I|I]; [|contradiction]. apply PP in I. unfold range in *. lia.
Qed.

Section Rows.
  Context (env : environment) (outside : text -> Z).
  Notation pattern_type := (pattern_type env).

  Lemma register_row_spec ts ps : Forall2 pattern_type ts ps -> Forall (simple outside false) ps -> forall vs a, length vs = length ps ->
    exists cs b P, register_row vs ps a = Done (cs, a ++ b) /\ placed (length a) (length (a ++ b)) P /\
      csrel (free (length a) (length (a ++ b)) P) (a ++ b) P cs (combine vs (map tree_of ps)).
  Proof.
    induction 1 as [|ty p ts ps TY F IH]; intros SI vs a L.
    - destruct vs; [|discriminate]. exists [], [], []. cbn. rewrite app_nil_r. split; [reflexivity|]. split; [apply placed_nil|]. constructor.
    - destruct vs as [|v vs]; [discriminate|]. injection L as L. inversion SI as [|? ? S1 S2]; subst. cbn [register_row].
      destruct (register p a) as [i a1] eqn:E. destruct (top_private env outside p ty TY S1 a i a1 E) as (b1 & j & -> & J & LI & U).
      destruct (IH S2 vs (a ++ b1) L) as (cs & b2 & P & -> & PP & C). cbn [bind].
      rewrite <- app_assoc in *. exists ((v, i) :: cs), (b1 ++ b2), ([j] ++ P). split; [reflexivity|].
      assert (placed (length a) (length (a ++ b1)) [j]) as PJ by (split; [repeat constructor; intros []|intros k [<-|[]]; exact J]).
      rewrite !app_length in *. split; [eapply placed_app; [exact PJ|exact PP|lia]|]. cbn [map combine]. constructor.
      + constructor. eapply udec_frame; [| |exact U].
        * intros k K. split; [eapply free_left; [exact K|exact PP|lia]|]. destruct K as [K _]. rewrite app_assoc, nth_error_app1; [reflexivity|]. unfold range in K. rewrite app_length. lia.
        * rewrite app_assoc, nth_error_app1; [reflexivity|]. unfold range in J. rewrite app_length. lia.
      + apply (frame_csrel (free (length a + length b1) (length a + (length b1 + length b2)) P) _ (a ++ b1 ++ b2) (a ++ b1 ++ b2) []); [apply frame_refl| | | | |exact C].
        * intros k [K _]. unfold range in K. rewrite !app_length. lia.
        * intros k K. eapply free_right; [exact K|exact PJ|lia].
        * intros k [].
        * intros k K. apply PP in K. unfold range in K. rewrite !app_length. split; [lia|intros []].
  Qed.

  Definition tbranch (vs : list cvar) (r : row) : branch tree :=
    Branch (row_clause r) (row_alternative r) (combine vs (map tree_of (row_patterns r)))
           (clause_guard (row_clause r) (row_patterns r) (row_guard r)) (Body [] (row_clause r)).
  Context (subjects : list ctype) (vs : list cvar) (LV : length vs = length subjects).
  Definition row_ok (r : row) : Prop :=
    Forall2 pattern_type subjects (row_patterns r) /\ Forall (simple outside false) (row_patterns r).

  Lemma Forall2_len {A B} (R : A -> B -> Prop) l m : Forall2 R l m -> length l = length m.
  Proof. induction 1; cbn; congruence. Qed.

  Definition placed_branches (a b : arena) (bs : list (branch pid)) (rs : list row) : Prop :=
    exists P, placed (length a) (length (a ++ b)) P /\
      bsrel (free (length a) (length (a ++ b)) P) (a ++ b) P bs (map (tbranch vs) rs).
  Lemma placed_branches_app a b1 b2 bs1 rs1 bs2 rs2 :
    placed_branches a b1 bs1 rs1 -> placed_branches (a ++ b1) b2 bs2 rs2 -> placed_branches a (b1 ++ b2) (bs1 ++ bs2) (rs1 ++ rs2).
  Proof.
    intros (P & P1 & B1) (Q & P2 & B2). rewrite <- app_assoc in *. exists (P ++ Q). rewrite !app_length in *.
    split; [eapply placed_app; [exact P1|exact P2|lia]|]. rewrite map_app. apply bsrel_app.
    - apply (frame_bsrel (free (length a) (length a + length b1) P) _ (a ++ b1) (a ++ b1 ++ b2) []); [rewrite app_assoc; apply frame_app| | | | |exact B1].
      + intros k [K _]. unfold range in K. rewrite !app_length. lia.
      + intros k K. eapply free_left; [exact K|exact P2|lia].
      + intros k [].
      + intros k K. apply P1 in K. unfold range in K. rewrite !app_length. split; [lia|intros []].
    - apply (frame_bsrel (free (length a + length b1) (length a + (length b1 + length b2)) Q) _ (a ++ b1 ++ b2) (a ++ b1 ++ b2) []); [apply frame_refl| | | | |exact B2].
      + intros k [K _]. unfold range in K. rewrite !app_length. lia.
      + intros k K. eapply free_right; [exact K|exact P1|lia].
      + intros k [].
      + intros k K. apply P2 in K. unfold range in K. rewrite !app_length. split; [lia|intros []].
  Qed.
  Lemma placed_branches_nil a : placed_branches a [] [] [].
  Proof. exists []. split; [apply placed_nil|constructor]. Qed.

  Lemma add_alternatives_spec c g alts : forall k a, Forall row_ok (alternative_rows c k g alts) ->
    exists bs b, add_alternatives vs c k g alts a = Done (bs, a ++ b) /\ placed_branches a b bs (alternative_rows c k g alts).
  Proof using LV.
    induction alts as [|ps alts IH]; intros k a F; cbn [alternative_rows add_alternatives] in *.
    - exists [], []. rewrite app_nil_r. split; [reflexivity|apply placed_branches_nil].
    - inversion F as [|? ? [T S] F']; subst. cbn in T, S.
      destruct (register_row_spec subjects ps T S vs a) as (cs & b1 & P & -> & PP & C); [rewrite LV; now apply Forall2_len in T|].
      cbn [bind]. destruct (IH (Datatypes.S k) (a ++ b1) F') as (bs & b2 & -> & PB). cbn [bind]. rewrite <- app_assoc in *.
      eexists (_ :: bs), (b1 ++ b2). split; [reflexivity|].
      refine (placed_branches_app a b1 b2 [_] [_] bs _ _ PB). exists P. split; [assumption|]. apply bsrel_one. repeat split. exact C.
  Qed.
  Lemma add_clauses_spec cls : forall c a, Forall row_ok (clause_rows c cls) ->
    exists bs b, add_clauses vs c cls a = Done (bs, a ++ b) /\ placed_branches a b bs (clause_rows c cls).
  Proof using LV.
    induction cls as [|cl cls IH]; intros c a F; cbn [clause_rows add_clauses] in *.
    - exists [], []. rewrite app_nil_r. split; [reflexivity|apply placed_branches_nil].
    - apply Forall_app in F. destruct F as [F1 F2].
      destruct (add_alternatives_spec c (guard_variables cl) (alternatives cl) 0 a F1) as (bs1 & b1 & -> & PB1). cbn [bind].
      destruct (IH (S c) (a ++ b1) F2) as (bs2 & b2 & -> & PB2). cbn [bind]. rewrite <- app_assoc in *.
      exists (bs1 ++ bs2), (b1 ++ b2). split; [reflexivity|]. eapply placed_branches_app; eassumption.
  Qed.
End Rows.

(** ** The first branches *)
Section First.
  Context (env : environment)
          (outside : text -> Z)
          (float_is : text -> endianness -> list bool -> bool)
          (finite : endianness -> list bool -> bool)
          (float_value : text -> val)
          (guards : nat -> list (text * val) -> bool).
  Notation tmatch := (tmatch outside float_is finite).
  Notation tmatches := (tmatches outside float_is finite).
  Notation checks_match := (checks_match outside float_is finite).
  Notation selected := (selected outside float_is finite float_value guards).
  Notation first_match := (first_match outside float_is finite float_value guards).
  Notation okt := (okt env outside float_is finite).
  Notation okb := (okb env outside float_is finite).
  Notation goodb := (goodb env outside float_is finite).
  Notation inv := (inv env outside float_is finite).
  Notation pattern_type := (pattern_type env).
  Notation accepts := (accepts outside float_is finite guards).

  Lemma subject_variables_length ts : forall k, length (subject_variables_from k ts) = length ts.
  Proof. induction ts as [|t ts IH]; intros k; cbn; [reflexivity|]. now rewrite IH. Qed.
  Lemma subject_ids ts : forall k, map id (subject_variables_from k ts) = seq k (length ts).
  Proof. induction ts as [|t ts IH]; intros k; cbn; [reflexivity|]. now rewrite IH. Qed.

  Context (subjects : list ctype).
  Notation vs := (subject_variables_from 0 subjects).
  Notation row_ok := (row_ok env outside subjects).
  Notation tbranch := (tbranch vs).

  Lemma subject_checks (G : nat -> ctype) ts ps : Forall2 pattern_type ts ps -> Forall (simple outside false) ps -> forall k,
    (forall j t, nth_error ts j = Some t -> G (k + j) = t) ->
    Forall (fun c => var_type (fst c) = G (id (fst c)) /\ okt true (var_type (fst c)) (snd c)) (combine (subject_variables_from k ts) (map tree_of ps)).
  Proof.
    induction 1 as [|ty p ts ps TY F IH]; intros SI k HG; cbn; [constructor|]. inversion SI as [|? ? S1 S2]; subst. constructor.
    - cbn. split; [|now apply okt_top, (source_okt env outside float_is finite p ty false)].
      rewrite <- (HG 0 ty eq_refl). f_equal. lia.
    - apply IH; [assumption|]. intros j t N. rewrite <- (HG (S j) t N). f_equal. lia.
  Qed.
  Lemma combine_ids (us : list cvar) (xs : list tree) : length us = length xs -> map (fun c => id (fst c)) (combine us xs) = map id us.
  Proof. revert xs. induction us as [|u us IH]; intros [|x xs] L; try discriminate; cbn; [reflexivity|]. f_equal. apply IH. now injection L. Qed.

  Definition subject_type (i : nat) : ctype := nth i subjects CFn.
  Lemma row_okb r : row_ok r -> okb subject_type (length subjects) (tbranch r).
  Proof.
    intros [T S]. pose proof (Forall2_len _ _ _ T) as L.
    assert (map (fun c => id (fst c)) (combine vs (map tree_of (row_patterns r))) = seq 0 (length subjects)) as E.
    { rewrite combine_ids, subject_ids; [reflexivity|]. now rewrite subject_variables_length, map_length. }
    split; [|split].
    - cbn. apply subject_checks; [assumption|assumption|]. intros j t N. unfold subject_type. now apply nth_error_nth.
    - cbn. rewrite E. apply seq_NoDup.
    - split; cbn; [|constructor]. apply Forall_forall. intros c I. apply (in_map (fun c => id (fst c))) in I. rewrite E in I. apply in_seq in I. lia.
  Qed.

  Lemma good_checks ts ps values : Forall2 pattern_type ts ps -> Forall (simple outside false) ps -> Forall2 (has_type env) values ts ->
    forall k (st : store), (forall j v, nth_error values j = Some v -> st (k + j) = v) ->
    Forall (fun c => has_type env (st (id (fst c))) (var_type (fst c)) /\ tgood outside float_is finite (st (id (fst c))) (snd c)) (combine (subject_variables_from k ts) (map tree_of ps)) /\
    checks_match (combine (subject_variables_from k ts) (map tree_of ps)) st = tmatches (map tree_of ps) values.
  Proof.
    intros F. revert values. induction F as [|ty p ts ps TY F IH]; intros values SI TV k st HS; inversion TV as [|v ? values' ? T1 T2]; subst; cbn [subject_variables_from combine map CaseSem.checks_match CaseSem.tmatches].
    - split; [constructor|reflexivity].
    - inversion SI as [|? ? S1 S2]; subst.
      assert (st k = v) as E by (rewrite <- (HS 0 v eq_refl); f_equal; lia).
      destruct (IH values' S2 T2 (S k) st) as [I1 I2].
      { intros j u N. rewrite <- (HS (S j) u N). f_equal. lia. }
      split.
      + constructor; [|exact I1]. cbn. rewrite E. split; [assumption|]. eapply okt_tgood. eapply source_okt; eassumption.
      + cbn [id]. now rewrite E, I2.
  Qed.
  Lemma store_nth values j v : nth_error values j = Some v -> subjects_store values (0 + j) = v.
  Proof. intros N. unfold subjects_store. cbn. now apply nth_error_nth. Qed.

  Lemma row_good r values : row_ok r -> Forall2 (has_type env) values subjects -> goodb (subjects_store values) (tbranch r).
  Proof. intros [T S] TV. unfold CaseStatic.goodb. cbn [checks CaseTop.tbranch]. eapply good_checks; [exact T|exact S|exact TV|apply store_nth]. Qed.
  Lemma row_selected r values l : row_ok r -> Forall2 (has_type env) values subjects ->
    (selected (tbranch r) (subjects_store values) = Some l <-> accepts r values l).
  Proof.
    intros [T S] TV. unfold CaseSem.selected, branch_match, CaseSpec.accepts. cbn [checks CaseTop.tbranch branch_body guard].
    destruct (good_checks subjects (row_patterns r) values T S TV 0 (subjects_store values)) as [_ ->]; [apply store_nth|].
    cbn [body_values body_bindings map]. change (body_values outside float_value (subjects_store values) (Body [] (row_clause r))) with (@nil (text * val)).
    rewrite nil_both. rewrite (patterns_spec env outside float_is finite subjects _ values l T TV).
    destruct (tmatches (map tree_of (row_patterns r)) values) as [m|]; [|split; [discriminate|intros [[=] _]]].
    unfold clause_guard. destruct (row_guard r) as [g|]; cbn.
    - destruct (guards (row_clause r) m) eqn:E.
      + split; [intros [= <-]; auto|now intros [[= ->] _]].
      + split; [discriminate|]. intros [[= ->] H]. rewrite H in E; [discriminate|discriminate].
    - split; [intros [= <-]; split; [reflexivity|congruence]|now intros [[= ->] _]].
  Qed.

  Lemma first_rows values rs r rs' l : Forall row_ok (rs ++ r :: rs') -> Forall2 (has_type env) values subjects ->
    accepts r values l -> (forall r' l', In r' rs -> ~ accepts r' values l') ->
    first_match (map tbranch (rs ++ r :: rs')) (subjects_store values) = Some ((row_clause r, row_alternative r), row_clause r, l).
  Proof.
    intros F TV A N. rewrite map_app. rewrite Forall_app in F. destruct F as [F1 F2]. inversion F2 as [|? ? OK _]; subst.
    induction F1 as [|r' rs OK' F1 IH]; cbn [map app CaseSem.first_match].
    - apply (row_selected r values l OK TV) in A. rewrite A. reflexivity.
    - destruct (selected (tbranch r') (subjects_store values)) as [l'|] eqn:E.
      + apply (row_selected r' values l' OK' TV) in E. destruct (N r' l'); [now left|assumption].
      + apply IH. intros r'' l'' I. apply N. now right.
  Qed.
  Lemma first_none values rs : Forall row_ok rs -> Forall2 (has_type env) values subjects ->
    (forall r l, In r rs -> ~ accepts r values l) -> first_match (map tbranch rs) (subjects_store values) = None.
  Proof.
    intros F TV. induction F as [|r rs OK F IH]; intros N; cbn [map CaseSem.first_match]; [reflexivity|].
    destruct (selected (tbranch r) (subjects_store values)) as [l|] eqn:E.
    - apply (row_selected r values l OK TV) in E. destruct (N r l); [now left|assumption].
    - apply IH. intros r' l' I. apply N. now right.
  Qed.

  (** *** Compatibility *)
  Lemma combine_split {A B} (us : list A) (xs : list B) : forall l1 c l2, combine us xs = l1 ++ c :: l2 -> length us = length xs ->
    exists u1 u2 x1 x2, us = u1 ++ fst c :: u2 /\ xs = x1 ++ snd c :: x2 /\ length u1 = length l1 /\ length x1 = length l1 /\
      l1 = combine u1 x1 /\ l2 = combine u2 x2.
  Proof.
    revert xs. induction us as [|u us IH]; intros [|x xs] l1 c l2 E L; try discriminate; [destruct l1; discriminate|].
    destruct l1 as [|d l1]; cbn in E.
    - injection E as <- <-. exists [], us, [], xs. repeat split.
    - injection E as <- E. injection L as L. destruct (IH xs l1 c l2 E L) as (u1 & u2 & x1 & x2 & -> & -> & L1 & L2 & -> & ->).
      exists (u :: u1), u2, (x :: x1), x2. cbn. auto 10.
  Qed.
  Lemma subject_id u1 v u2 : vs = u1 ++ v :: u2 -> id v = length u1.
  Proof.
    intros E. pose proof (subject_ids subjects 0) as H. rewrite E, map_app in H. cbn in H.
    assert (nth (length u1) (map id u1 ++ id v :: map id u2) 0 = id v) as N1 by (rewrite app_nth2; rewrite map_length; [now rewrite Nat.sub_diag|lia]).
    rewrite H in N1. rewrite seq_nth in N1; [lia|]. apply (f_equal (@length _)) in H. rewrite seq_length, app_length, map_length in H. cbn in H. lia.
  Qed.
  Lemma guard_bindings r : guard_uses_bindings r -> has_binding_guard (tbranch r) = true.
  Proof.
    intros (ref & n & p & E & IR & IP & IN). unfold has_binding_guard. cbn. rewrite E. cbn. apply existsb_exists. exists p. split; [assumption|].
    apply existsb_exists. exists n. split; [assumption|]. apply existsb_exists. exists n. split; [assumption|]. now apply text_eqb_iff.
  Qed.
  Lemma row_compat r r' : row_ok r -> row_ok r' -> compatible r r' -> compat (tbranch r) (tbranch r').
  Proof.
    intros [T S] [T' S'] C v p others w q k sibs PE I ID CL. cbn in PE, I.
    assert (length vs = length (map tree_of (row_patterns r))) as L1 by (rewrite subject_variables_length, map_length; now apply Forall2_len in T).
    assert (length vs = length (map tree_of (row_patterns r'))) as L2 by (rewrite subject_variables_length, map_length; now apply Forall2_len in T').
    apply perm_cons_split in PE. destruct PE as (l1 & l2 & E & PO). apply in_split in I. destruct I as (m1 & m2 & E').
    destruct (combine_split _ _ l1 (v, p) l2 E L1) as (u1 & u2 & x1 & x2 & EV & EX & LU & LX & -> & ->).
    destruct (combine_split _ _ m1 (w, q) m2 E' L2) as (u1' & u2' & x1' & x2' & EV' & EX' & LU' & LX' & -> & ->).
    cbn [fst snd] in *. apply subject_id in EV, EV'. rewrite <- LU in LX. rewrite <- LU' in LX'.
    assert (length x1 = length x1') as LL by congruence.
    apply map_eq_app in EX, EX'. destruct EX as (before & y & EP & <- & EY), EX' as (before' & y' & EP' & <- & EY').
    apply map_eq_cons in EY, EY'. destruct EY as (sp & after & -> & <- & <-), EY' as (sq & after' & -> & <- & <-).
    rewrite !map_length in LL.
    rewrite EP in T. rewrite EP' in T'. destruct (Forall2_split _ _ _ _ _ T) as [tp TP]. destruct (Forall2_split _ _ _ _ _ T') as [tq TQ].
    destruct (tclash_source env k _ _ _ CL sp sq tp tq eq_refl eq_refl TP TQ) as (sibs' & p' & q' & M & SC & IR).
    destruct (C before sp after before' sq after' sibs' p' q' EP EP' LL M) as [CS CP].
    assert (only_string r (before ++ after) sibs' -> alone (tbranch r) others sibs) as AL.
    { intros (G & F1 & F2). split; [cbn; now rewrite G|]. split; [|auto].
      apply (Permutation_Forall PO). apply Forall_app in F1. destruct F1 as [FB FA]. apply Forall_app.
      assert (forall us ps, Forall irrefutable ps -> Forall (fun c => irref (snd c) = true) (@combine cvar tree us (map tree_of ps))) as CI.
      { clear. intros us ps F. revert us. induction F as [|p ps H F IH]; intros [|u us]; cbn; try constructor; auto. cbn. now apply source_irref. }
      split; now apply CI. }
    destruct k; cbn in SC.
    - destruct (CP SC) as [H|H]; [left; auto|]. right. split; [reflexivity|]. now apply guard_bindings.
    - left. auto.
  Qed.

  Lemma rows_pairs rs : Forall row_ok rs -> (forall l1 r l2 r' l3, rs = l1 ++ r :: l2 ++ r' :: l3 -> compatible r r') -> pairs compat (map tbranch rs).
  Proof.
    induction 1 as [|r rs OK F IH]; intros C; cbn [map pairs]; [exact I|]. split.
    - apply Forall_map, Forall_forall. intros r' I. rewrite Forall_forall in F. apply row_compat; [assumption|auto|].
      apply in_split in I. destruct I as (l2 & l3 & ->). apply (C [] r l2 r' l3). reflexivity.
    - apply IH. intros l1 r1 l2 r2 l3 ->. apply (C (r :: l1) r1 l2 r2 l3). reflexivity.
  Qed.
  Lemma alternative_ids c g alts : forall k, map (fun r => (row_clause r, row_alternative r)) (alternative_rows c k g alts) = map (fun j => (c, j)) (seq k (length alts)).
  Proof. induction alts as [|a alts IH]; intros k; cbn; [reflexivity|]. now rewrite IH. Qed.
  Lemma clause_ids cls : forall c, NoDup (map (fun r => (row_clause r, row_alternative r)) (clause_rows c cls)) /\
    forall r, In r (clause_rows c cls) -> c <= row_clause r.
  Proof.
    clear. induction cls as [|cl cls IH]; intros c; cbn; [split; [constructor|intros r []]|]. destruct (IH (S c)) as [N L]. split.
    - rewrite map_app. apply nodup_app. rewrite alternative_ids. split; [|split; [assumption|]].
      + apply FinFun.Injective_map_NoDup; [intros x y; congruence|apply seq_NoDup].
      + intros k I1 I2. apply in_map_iff in I1, I2. destruct I1 as (j & <- & _), I2 as (r & E & I). apply L in I. injection E as E _. lia.
    - intros r I. apply in_app_iff in I. destruct I as [I|I]; [|apply L in I; lia].
      apply (in_map (fun r => (row_clause r, row_alternative r))) in I. rewrite alternative_ids in I. apply in_map_iff in I. destruct I as (j & E & _). injection E as -> _. lia.
  Qed.

  Lemma rows_weights cls : forall c, weights (map tbranch (clause_rows c cls)) <= list_sum (map clause_size cls).
  Proof.
    clear - cls. assert (forall us ps, csize (combine us (map tree_of ps)) <= list_sum (map source_size ps)) as CS.
    { induction us as [|u us IH]; intros [|p ps]; unfold csize, list_sum in *; cbn [combine map fold_right snd]; try lia.
      specialize (IH ps). pose proof (source_tsize p). lia. }
    assert (forall c g alts k, weights (map tbranch (alternative_rows c k g alts)) <= list_sum (map (fun ps => S (list_sum (map source_size ps))) alts)) as AL.
    { induction alts as [|ps alts IH]; intros k; unfold weights, list_sum in *; cbn [alternative_rows map fold_right]; [lia|].
      specialize (IH (S k)). specialize (CS vs ps). unfold weight at 1. cbn [checks CaseTop.tbranch row_patterns]. unfold list_sum in CS. lia. }
    induction cls as [|cl cls IH]; intros c; [cbn; lia|]. cbn [clause_rows]. rewrite map_app, weights_app. specialize (IH (S c)).
    assert (list_sum (map clause_size (cl :: cls)) = clause_size cl + list_sum (map clause_size cls)) as -> by reflexivity.
    pose proof (AL c (guard_variables cl) (alternatives cl) 0) as A. fold (clause_size cl) in A. lia.
  Qed.
End First.

Section Whole.
  Context (env : environment)
          (outside : text -> Z)
          (float_is : text -> endianness -> list bool -> bool)
          (finite : endianness -> list bool -> bool)
          (float_value : text -> val)
          (guards : nat -> list (text * val) -> bool)
          (guards_perm : forall c l m, Permutation l m -> guards c l = guards c m).
  Notation run := (run outside float_is finite float_value guards).
  Notation accepts := (accepts outside float_is finite guards).
  Notation selects := (selects outside float_is finite guards).

  (** The compiler on trees gives the result of the compiler. *)
  Lemma compile_case_pure subjects cls : well_typed env subjects cls -> simple_case outside cls -> rows cls <> [] ->
    let bs := map (tbranch (subject_variables_from 0 subjects)) (rows cls) in
    Forall (row_ok env outside subjects) (rows cls) /\
    inv env outside float_is finite (subject_type subjects) (length subjects) bs /\ weights bs < case_fuel cls /\
    exists d x, pcompile env (case_fuel cls) bs (Context (length subjects) false [] [] []) = Done (d, x) /\
      compile_case env subjects cls = Done (d, x) /\
      compiled env outside float_is finite float_value guards bs (Context (length subjects) false [] [] []) d x.
  Proof.
    intros WT [SI NC] NE. set (vs := subject_variables_from 0 subjects). cbv zeta.
    assert (Forall (row_ok env outside subjects) (rows cls)) as OK.
    { apply Forall_forall. intros r I. split; auto. }
    split; [assumption|].
    destruct (add_clauses_spec env outside subjects vs (subject_variables_length subjects 0) cls 0 [] OK) as (bs & a & AC & P & PL & BR).
    cbn [app length] in *. fold (rows cls) in BR.
    assert (inv env outside float_is finite (subject_type subjects) (length subjects) (map (tbranch vs) (rows cls))) as INV.
    { split; [|split].
      - apply Forall_map. apply Forall_forall. intros r I. rewrite Forall_forall in OK. now apply row_okb, OK.
      - apply (rows_pairs env outside subjects); assumption.
      - rewrite map_map. apply (clause_ids cls 0). }
    split; [assumption|].
    assert (weights (map (tbranch vs) (rows cls)) < case_fuel cls) as W.
    { pose proof (rows_weights subjects cls 0). unfold case_fuel, rows, vs. lia. }
    split; [assumption|].
    set (x0 := Context (length subjects) false [] [] []).
    destruct (pcompile_spec env outside float_is finite float_value guards guards_perm (case_fuel cls) (subject_type subjects) (length subjects) _ x0 INV) as (d & x & PC & COMP).
    { cbn. lia. }
    { exact W. }
    destruct (compile_refine env (case_fuel cls) (free 0 (length a) P) a P bs (map (tbranch vs) (rows cls)) x0 d x) as (a' & CC & _); [| |exact BR|exact PC|].
    { intros k [K _]. unfold range in K. lia. }
    { destruct PL as [ND R]. split; [assumption|]. intros k I. split; [apply R in I; unfold range in I; lia|]. intros [_ N]. contradiction. }
    exists d, x. split; [exact PC|]. split; [|exact COMP].
    unfold compile_case. fold vs. rewrite AC. cbn [bind]. destruct bs as [|b bs].
    - inversion BR as [E|]; subst. destruct (rows cls); [congruence|discriminate].
    - fold x0. rewrite CC. reflexivity.
  Qed.

  Theorem compile_case_correct subjects cls : well_typed env subjects cls -> simple_case outside cls -> rows cls <> [] ->
    exists d x, compile_case env subjects cls = Done (d, x) /\
      forall values, Forall2 (has_type env) values subjects ->
        (forall r bs, selects cls values r bs ->
           In (row_clause r, row_alternative r) (reachable x) /\
           exists bs', run d (subjects_store values) = Some (row_clause r, bs') /\ Permutation bs bs') /\
        ((forall r bs, In r (rows cls) -> ~ accepts r values bs) ->
           run d (subjects_store values) = None /\ missing x = true).
  Proof.
    intros WT SI NE. destruct (compile_case_pure subjects cls WT SI NE) as (OK & INV & _ & d & x & _ & CC & _ & COMP).
    set (vs := subject_variables_from 0 subjects) in *. exists d, x. split; [assumption|].
    intros values TV. destruct (COMP (subjects_store values)) as (AG & RE & MI).
    { apply Forall_map. eapply Forall_impl; [|exact OK]. intros r O. now apply row_good. }
    split.
    - intros r l (before & after & E & A & N). rewrite E in *.
      pose proof (first_rows env outside float_is finite float_value guards subjects values before r after l OK TV A N) as FR. fold vs in FR. rewrite FR in AG, RE.
      split; [now eapply RE|]. cbn in AG. destruct (run d (subjects_store values)) as [[c m]|]; [|contradiction]. destruct AG as [-> PM].
      exists m. split; [reflexivity|now apply Permutation_sym].
    - intros N. pose proof (first_none env outside float_is finite float_value guards subjects values (rows cls) OK TV N) as FN. fold vs in FN. rewrite FN in AG, MI.
      split; [|auto]. cbn in AG. destruct (run d (subjects_store values)) as [[c m]|]; [contradiction|reflexivity].
  Qed.
End Whole.
