(** Proofs about bit array tests: codes, offsets and what one test says about another. *)
From Coq Require Import ZArith NArith Bool List Lia ZifyBool ZifyNat ZifyN.
From Verif Require Import Text TextProofs Strings StringsSpec StringsProofs Bits BitsSpec BitsIntProofs.
Import ListNotations.
Local Open Scope Z_scope.

Lemma nth_error_ext {A} (a : list A) : forall b, (forall i, nth_error a i = nth_error b i) -> a = b.
Proof.
  induction a as [|x a IH]; intros [|y b] H; [reflexivity|discriminate (H O)|discriminate (H O)|].
  pose proof (H O) as E. injection E as ->. f_equal. apply IH. intros i. exact (H (S i)).
Qed.

(** ** Codes determine what they code *)
Scheme var_ind := Induction for variable_usage Sort Prop
  with read_ind := Induction for read_action Sort Prop
  with offset_ind2 := Induction for offset Sort Prop
  with bag_ind2 := Induction for bag Sort Prop
  with calcs_ind2 := Induction for calcs Sort Prop
  with size_ind := Induction for read_size Sort Prop.
Combined Scheme sizes_ind from var_ind, read_ind, offset_ind2, bag_ind2, calcs_ind2, size_ind.

Lemma code_z_prefix a b r s : code_z a ++ r = code_z b ++ s -> a = b /\ r = s.
Proof.
  unfold code_z. cbn [app]. intros [= H1 H2 H3]. split; [|assumption].
  destruct (Z.ltb_spec a 0), (Z.ltb_spec b 0); try discriminate; lia.
Qed.
Lemma code_text_prefix a b r s : code_text a ++ r = code_text b ++ s -> a = b /\ r = s.
Proof.
  unfold code_text. cbn [app]. intros [= L E]. assert (length a = length b) as L' by lia. clear L.
  revert b L' E. induction a as [|x a IH]; intros [|y b] L E; try discriminate; [auto|].
  injection L as L. injection E as -> E. destruct (IH b L E) as [-> ->]. auto.
Qed.
Lemma code_type_inj a b : code_type a = code_type b -> a = b.
Proof. destruct a, b; cbn; congruence. Qed.
Lemma code_operator_inj a b : code_operator a = code_operator b -> a = b.
Proof. destruct a, b; cbn; congruence. Qed.
Lemma code_endianness_inj a b : code_endianness a = code_endianness b -> a = b.
Proof. destruct a, b; cbn; congruence. Qed.
Lemma code_bool_inj a b : code_bool a = code_bool b -> a = b.
Proof. destruct a, b; cbn; congruence. Qed.

Lemma cons_inj {A} (x y : A) a b : x :: a = y :: b -> x = y /\ a = b.
Proof. intros [= -> ->]. auto. Qed.

Lemma codes_prefix :
  (forall a b r s, code_var a ++ r = code_var b ++ s -> a = b /\ r = s) /\
  (forall a b r s, code_read a ++ r = code_read b ++ s -> a = b /\ r = s) /\
  (forall a b r s, code_offset a ++ r = code_offset b ++ s -> a = b /\ r = s) /\
  (forall a b r s, code_bag a ++ r = code_bag b ++ s -> a = b /\ r = s) /\
  (forall a b r s, code_calcs a ++ r = code_calcs b ++ s -> a = b /\ r = s) /\
  (forall a b r s, code_size a ++ r = code_size b ++ s -> a = b /\ r = s).
Proof.
  apply sizes_ind.
  - intros n ra IH [m rb|m] r s E; cbn [code_var] in E; rewrite <- ?app_comm_cons, <- ?app_assoc in E; [|discriminate].
    apply cons_inj in E as [_ E]. apply code_text_prefix in E as [-> E]. apply IH in E as [-> ->]. auto.
  - intros n [m rb|m] r s E; cbn [code_var] in E; rewrite <- ?app_comm_cons, <- ?app_assoc in E; [discriminate|].
    apply cons_inj in E as [_ E]. apply code_text_prefix in E as [-> ->]. auto.
  - intros f IHf z IHz t e b [f' z' t' e' b'] r s E. cbn [code_read] in E. rewrite <- ?app_assoc in E.
    apply IHf in E as [-> E]. apply IHz in E as [-> E]. cbn [app] in E. apply cons_inj in E as [E1 E]. apply cons_inj in E as [E2 E]. apply cons_inj in E as [E3 E4].
    apply code_type_inj in E1 as ->. apply code_endianness_inj in E2 as ->. apply code_bool_inj in E3 as ->. auto.
  - intros c vs IHv cs IHc [c' vs' cs'] r s E. cbn [code_offset] in E. rewrite <- ?app_assoc in E.
    apply code_z_prefix in E as [-> E]. apply IHv in E as [-> E]. apply IHc in E as [-> ->]. auto.
  - intros [|k n b] r s E; cbn [code_bag app] in E; [|discriminate]. now injection E as ->.
  - intros k IHk n b IHb [|k' n' b'] r s E; cbn [code_bag] in E; rewrite <- ?app_comm_cons in E; [discriminate|].
    apply cons_inj in E as [_ E]. rewrite <- !app_assoc in E. apply IHk in E as [-> E]. cbn [app] in E. apply cons_inj in E as [-> E].
    apply IHb in E as [-> ->]. auto.
  - intros [|l q o b] r s E; cbn [code_calcs app] in E; [|discriminate]. now injection E as ->.
  - intros l IHl q IHq o b IHb [|l' q' o' b'] r s E; cbn [code_calcs] in E; rewrite <- ?app_comm_cons in E; [discriminate|].
    apply cons_inj in E as [_ E]. rewrite <- !app_assoc in E. apply IHl in E as [-> E]. apply IHq in E as [-> E].
    cbn [app] in E. apply cons_inj in E as [E1 E]. apply code_operator_inj in E1 as ->. apply IHb in E as [-> ->]. auto.
  - intros z [z'| | | |] r s E; cbn [code_size] in E; rewrite <- ?app_comm_cons in E; try discriminate.
    apply cons_inj in E as [_ E]. apply code_z_prefix in E as [-> ->]. auto.
  - intros v IHv u [|v' u'| | |] r s E; cbn [code_size] in E; rewrite <- ?app_comm_cons in E; try discriminate.
    apply cons_inj in E as [_ E]. rewrite <- !app_assoc in E. apply IHv in E as [-> E]. cbn [app] in E. injection E as -> ->. auto.
  - intros l IHl q IHq o [| |l' q' o'| |] r s E; cbn [code_size] in E; rewrite <- ?app_comm_cons in E; try discriminate.
    apply cons_inj in E as [_ E]. rewrite <- !app_assoc in E. apply IHl in E as [-> E]. apply IHq in E as [-> E].
    cbn [app] in E. apply cons_inj in E as [E1 E]. apply code_operator_inj in E1 as ->. auto.
  - intros [| | | |] r s E; cbn [code_size] in E; rewrite <- ?app_comm_cons in E; try discriminate. now injection E as ->.
  - intros [| | | |] r s E; cbn [code_size] in E; rewrite <- ?app_comm_cons in E; try discriminate. now injection E as ->.
Qed.

Lemma code_inj {A} (code : A -> list N) (P : forall a b r s, code a ++ r = code b ++ s -> a = b /\ r = s) a b :
  text_eqb (code a) (code b) = true <-> a = b.
Proof.
  rewrite text_eqb_eq. split; [|intros ->; reflexivity]. intros E.
  destruct (P a b [] []) as [H _]; [now rewrite E|assumption].
Qed.
Lemma var_eqb_eq a b : var_eqb a b = true <-> a = b.
Proof. apply (code_inj code_var), codes_prefix. Qed.
Lemma offset_eqb_eq a b : offset_eqb a b = true <-> a = b.
Proof. apply (code_inj code_offset), codes_prefix. Qed.
Lemma size_eqb_eq a b : size_eqb a b = true <-> a = b.
Proof. apply (code_inj code_size), codes_prefix. Qed.
Lemma read_eqb_eq a b : read_eqb a b = true <-> a = b.
Proof. apply (code_inj code_read), codes_prefix. Qed.

(** ** Hash maps *)
Fixpoint bag_has (k : variable_usage) (b : bag) : Prop :=
  match b with BNil => False | BCons k' _ b => k = k' \/ bag_has k b end.
Fixpoint bag_nodup (b : bag) : Prop :=
  match b with BNil => True | BCons k _ b => ~ bag_has k b /\ bag_nodup b end.
Lemma bag_get_none k b : bag_get k b = None <-> ~ bag_has k b.
Proof.
  induction b as [|k' n b IH]; cbn; [tauto|].
  destruct (var_eqb k k') eqn:E.
  - apply var_eqb_eq in E. subst. split; [discriminate|tauto].
  - rewrite IH. assert (k <> k') by (intros ->; rewrite (proj2 (var_eqb_eq k' k') eq_refl) in E; discriminate). tauto.
Qed.
Lemma bag_insert_has k n b x : bag_has x (bag_insert k n b) <-> x = k \/ bag_has x b.
Proof.
  induction b as [|k' n' b IH]; cbn [bag_insert]; [cbn; tauto|].
  destruct (text_cmp _ _); cbn [bag_has]; rewrite ?IH; tauto.
Qed.
Lemma bag_insert_nodup k n b : bag_nodup b -> ~ bag_has k b -> bag_nodup (bag_insert k n b).
Proof.
  induction b as [|k' n' b IH]; cbn [bag_insert bag_nodup bag_has]; [tauto|].
  intros [H1 H2] H3. destruct (text_cmp _ _); cbn [bag_nodup bag_has]; try tauto.
  - rewrite bag_insert_has. split; [|tauto]. intros [->|]; tauto.
  - rewrite bag_insert_has. split; [|tauto]. intros [->|]; tauto.
Qed.
Lemma bag_increase_has k n b x : bag_has x (bag_increase k n b) <-> bag_has x b.
Proof.
  induction b as [|k' n' b IH]; cbn [bag_increase]; [tauto|].
  destruct (var_eqb k k'); cbn [bag_has]; rewrite ?IH; tauto.
Qed.
Lemma bag_increase_nodup k n b : bag_nodup b -> bag_nodup (bag_increase k n b).
Proof.
  induction b as [|k' n' b IH]; cbn [bag_increase]; [tauto|].
  destruct (var_eqb k k'); cbn [bag_nodup]; rewrite ?bag_increase_has; tauto.
Qed.
Lemma bag_alter_nodup k n b : bag_nodup b -> bag_nodup (bag_alter k n b).
Proof.
  intros H. unfold bag_alter. destruct (bag_get k b) eqn:E.
  - now apply bag_increase_nodup.
  - apply bag_insert_nodup; [assumption|]. now apply bag_get_none.
Qed.
Lemma add_size_nodup s : forall o, bag_nodup (variables o) -> bag_nodup (variables (add_size o s)).
Proof.
  induction s as [z|v u|l IHl r IHr o| |]; intros [c vs cs] H; cbn [add_size]; try assumption.
  - now apply bag_alter_nodup.
  - destruct o; try assumption. apply IHr, IHl, H.
Qed.

(** ** Slices *)
Lemma read_spec b from size c : read b from size = Some c <->
  0 <= from /\ 0 <= size /\ from + size <= Z.of_nat (length b) /\ Z.of_nat (length c) = size /\
  forall i, (i < length c)%nat -> nth_error b (Z.to_nat from + i) = nth_error c i.
Proof.
  unfold read. split.
  - destruct (_ && _) eqn:E; [|discriminate]. intros [= <-].
    assert (L : length (firstn (Z.to_nat size) (skipn (Z.to_nat from) b)) = Z.to_nat size).
    { rewrite firstn_length, skipn_length. lia. }
    rewrite L. repeat (split; [lia|]). intros i Hi.
    rewrite <- (firstn_skipn (Z.to_nat from) b) at 1.
    rewrite nth_error_app2, firstn_length by (rewrite firstn_length; lia).
    replace (Z.to_nat from + i - Nat.min (Z.to_nat from) (length b))%nat with i by lia.
    rewrite <- (firstn_skipn (Z.to_nat size) (skipn (Z.to_nat from) b)) at 1.
    rewrite nth_error_app1 by lia. reflexivity.
  - intros (H1 & H2 & H3 & H4 & H5).
    destruct (_ && _) eqn:E; [|lia]. f_equal.
    apply nth_error_ext. intros i.
    destruct (Nat.lt_ge_cases i (length c)) as [L|L].
    + rewrite <- H5 by assumption.
      rewrite <- (firstn_skipn (Z.to_nat from) b) at 2.
      rewrite nth_error_app2, firstn_length by (rewrite firstn_length; lia).
      replace (Z.to_nat from + i - Nat.min (Z.to_nat from) (length b))%nat with i by lia.
      rewrite <- (firstn_skipn (Z.to_nat size) (skipn (Z.to_nat from) b)) at 2.
      rewrite nth_error_app1 by (rewrite firstn_length, skipn_length; lia). reflexivity.
    + rewrite (proj2 (nth_error_None c i)) by lia. apply nth_error_None.
      rewrite firstn_length, skipn_length. lia.
Qed.

Section Eval.
  Context (outside : text -> Z) (b : list bool).
  Notation eval_var := (eval_var outside b).
  Notation eval_bag := (eval_bag outside b).
  Notation eval_calcs := (eval_calcs outside b).
  Notation eval_offset := (eval_offset outside b).
  Notation eval_size := (eval_size outside b).
  Notation bag_nonneg := (bag_nonneg outside b).
  Notation read_of := (read_of outside b).

  Lemma ev_seg n f s t e sg : eval_var (PatternSegment n (ReadAction f s t e sg)) =
    match read b (eval_offset f) (eval_size s) with Some c => int_of e sg c | None => 0 end.
  Proof. reflexivity. Qed.
  Lemma ev_outside n : eval_var (OutsideVariable n) = outside n.
  Proof. reflexivity. Qed.
  Lemma ev_offset c vs cs : eval_offset (Offset c vs cs) = c + eval_bag vs + eval_calcs cs.
  Proof. reflexivity. Qed.
  Lemma ev_bnil : eval_bag BNil = 0.
  Proof. reflexivity. Qed.
  Lemma ev_bcons k n m : eval_bag (BCons k n m) = Z.of_N n * eval_var k + eval_bag m.
  Proof. reflexivity. Qed.
  Lemma ev_cnil : eval_calcs CNil = 0.
  Proof. reflexivity. Qed.
  Lemma ev_ccons l r o cs : eval_calcs (CCons l r o cs) = arith o (eval_offset l) (eval_offset r) + eval_calcs cs.
  Proof. reflexivity. Qed.
  Lemma ev_constant z : eval_size (ConstantBits z) = z.
  Proof. reflexivity. Qed.
  Lemma ev_variable v u : eval_size (VariableBits v u) = eval_var v * Z.of_N u.
  Proof. reflexivity. Qed.
  Lemma ev_op l r o : eval_size (BinaryOperator l r o) = arith o (eval_size l) (eval_size r).
  Proof. reflexivity. Qed.
  Lemma ev_rest_bits : eval_size RemainingBits = 0.
  Proof. reflexivity. Qed.
  Lemma ev_rest_bytes : eval_size RemainingBytes = 0.
  Proof. reflexivity. Qed.
  Ltac ev := repeat (progress rewrite ?ev_seg, ?ev_outside, ?ev_offset, ?ev_bcons, ?ev_bnil, ?ev_ccons, ?ev_cnil, ?ev_constant,
    ?ev_variable, ?ev_op, ?ev_rest_bits, ?ev_rest_bytes).
  Opaque BitsSpec.eval_var BitsSpec.eval_offset BitsSpec.eval_bag BitsSpec.eval_calcs BitsSpec.eval_size.

  Lemma eval_bag_insert k n m : eval_bag (bag_insert k n m) = eval_bag m + Z.of_N n * eval_var k.
  Proof.
    induction m as [|k' n' m IH]; cbn [bag_insert]; [ev; lia|].
    destruct (text_cmp _ _); ev; rewrite ?IH; lia.
  Qed.
  Lemma eval_bag_increase k n m x : bag_get k m = Some x ->
    eval_bag (bag_increase k n m) = eval_bag m + Z.of_N n * eval_var k.
  Proof.
    induction m as [|k' n' m IH]; cbn [bag_get bag_increase]; [discriminate|].
    destruct (var_eqb k k') eqn:E; intros H; ev.
    - apply var_eqb_eq in E. subst. lia.
    - rewrite IH by assumption. lia.
  Qed.
  Lemma eval_bag_alter k n m : eval_bag (bag_alter k n m) = eval_bag m + Z.of_N n * eval_var k.
  Proof.
    unfold bag_alter. destruct (bag_get k m) eqn:E; [eapply eval_bag_increase; eassumption|apply eval_bag_insert].
  Qed.
  Lemma eval_push_back l r o cs : eval_calcs (push_back l r o cs) = eval_calcs cs + arith o (eval_offset l) (eval_offset r).
  Proof. induction cs as [|l' r' o' cs IH]; cbn [push_back]; ev; [lia|]. rewrite IH. lia. Qed.
  Lemma eval_constant_offset z : eval_offset (constant_offset z) = z.
  Proof. unfold constant_offset. ev. lia. Qed.
  Lemma eval_add_size s : forall o, eval_offset (add_size o s) = eval_offset o + eval_size s.
  Proof.
    induction s as [z|v u|l IHl r IHr o| |]; intros [c vs cs]; cbn [add_size].
    - ev. lia.
    - ev. rewrite eval_bag_alter. lia.
    - destruct o; try (ev; rewrite eval_push_back, IHl, IHr, !eval_constant_offset; ev; rewrite !Z.add_0_l; lia).
      rewrite IHr, IHl. ev; cbn [arith]. lia.
    - ev. lia.
    - ev. lia.
  Qed.

  (** A superset of non-negative variables is at least as large. *)
  Fixpoint bag_remove (k : variable_usage) (m : bag) : bag :=
    match m with
    | BNil => BNil
    | BCons k' n m => if var_eqb k k' then m else BCons k' n (bag_remove k m)
    end.
  Lemma bag_remove_get k k' m : k' <> k -> bag_get k' (bag_remove k m) = bag_get k' m.
  Proof.
    intros N. induction m as [|j n m IH]; cbn [bag_remove bag_get]; [reflexivity|].
    destruct (var_eqb k j) eqn:E; cbn [bag_get].
    - apply var_eqb_eq in E. subst j. destruct (var_eqb k' k) eqn:E2; [apply var_eqb_eq in E2; congruence|reflexivity].
    - now rewrite IH.
  Qed.
  Lemma bag_remove_eval k m n : bag_get k m = Some n -> eval_bag m = Z.of_N n * eval_var k + eval_bag (bag_remove k m).
  Proof.
    induction m as [|j x m IH]; cbn [bag_remove bag_get]; ev; [discriminate|].
    destruct (var_eqb k j) eqn:E; intros H.
    - injection H as ->. apply var_eqb_eq in E. subst. lia.
    - ev. rewrite IH by assumption. lia.
  Qed.
  Lemma bag_remove_nonneg k m : bag_nonneg m -> bag_nonneg (bag_remove k m).
  Proof.
    induction m as [|j x m IH]; cbn [bag_remove BitsSpec.bag_nonneg]; [tauto|].
    destruct (var_eqb k j); cbn [BitsSpec.bag_nonneg]; tauto.
  Qed.
  Lemma bag_get_nonneg k m n : bag_nonneg m -> bag_get k m = Some n -> 0 <= eval_var k.
  Proof.
    induction m as [|j x m IH]; cbn [bag_get BitsSpec.bag_nonneg]; [discriminate|].
    destruct (var_eqb k j) eqn:E; intros [H1 H2] H.
    - apply var_eqb_eq in E. now subst.
    - auto.
  Qed.
  Lemma bag_nonneg_eval m : bag_nonneg m -> 0 <= eval_bag m.
  Proof. induction m as [|j x m IH]; cbn [BitsSpec.bag_nonneg]; ev; [lia|]. intros [H1 H2]. specialize (IH H2). nia. Qed.
  Lemma superset_remove k one other : superset one other = true -> ~ bag_has k other ->
    superset (bag_remove k one) other = true.
  Proof.
    induction other as [|j x m IH]; cbn [superset bag_has]; [auto|].
    intros H N. rewrite bag_remove_get by (intros ->; tauto).
    destruct (bag_get j one); [|discriminate]. apply andb_true_iff in H as [H1 H2]. rewrite H1. cbn. apply IH; tauto.
  Qed.
  Lemma superset_eval other : forall one, superset one other = true -> bag_nodup other -> bag_nonneg one ->
    eval_bag other <= eval_bag one.
  Proof.
    induction other as [|k n m IH]; intros one S D NN; ev.
    - now apply bag_nonneg_eval.
    - cbn [superset bag_nodup] in *. destruct (bag_get k one) as [x|] eqn:E; [|discriminate].
      apply andb_true_iff in S as [S1 S2]. destruct D as [D1 D2].
      rewrite (bag_remove_eval _ _ _ E).
      pose proof (bag_get_nonneg _ _ _ NN E).
      pose proof (IH (bag_remove k one) (superset_remove _ _ _ S2 D1) D2 (bag_remove_nonneg _ _ NN)).
      assert (Z.of_N n <= Z.of_N x) by lia. nia.
  Qed.

  Lemma calcs_empty cs : calcs_is_empty cs = true -> cs = CNil.
  Proof. destruct cs; [reflexivity|discriminate]. Qed.
  Lemma greater_eval x y : greater x y = true -> bag_nodup (variables y) -> bag_nonneg (variables x) ->
    eval_offset y < eval_offset x.
  Proof.
    destruct x as [c vs cs], y as [c' vs' cs']. unfold greater. cbn [constant variables calculations].
    rewrite !andb_true_iff. intros [[[H1 H2] H3] H4] D NN.
    apply calcs_empty in H2 as ->. apply calcs_empty in H3 as ->. ev.
    pose proof (superset_eval _ _ H4 D NN). ev. lia.
  Qed.
  Lemma greater_equal_eval x y : greater_equal x y = true -> bag_nodup (variables y) -> bag_nonneg (variables x) ->
    eval_offset y <= eval_offset x.
  Proof.
    unfold greater_equal. rewrite orb_true_iff. intros [H|H] D NN.
    - apply offset_eqb_eq in H as ->. lia.
    - destruct x as [c vs cs], y as [c' vs' cs']. cbn [constant variables calculations] in *.
      rewrite !andb_true_iff in H. destruct H as [[[H1 H2] H3] H4].
      apply calcs_empty in H2 as ->. apply calcs_empty in H3 as ->. ev.
      pose proof (superset_eval _ _ H4 D NN). ev. lia.
  Qed.

  Lemma offset_constant o z : offset_constant_bits o = Some z -> eval_offset o = z.
  Proof.
    destruct o as [c [|k n m] [|l r o cs]]; unfold offset_constant_bits; cbn [variables calculations constant bag_is_empty calcs_is_empty andb]; try discriminate.
    intros [= ->]. ev. lia.
  Qed.
End Eval.

Section Values.
  Context (outside : text -> Z) (float_is : text -> endianness -> list bool -> bool)
          (finite : endianness -> list bool -> bool) (b : list bool).
  Notation eval_offset := (eval_offset outside b).
  Notation eval_size := (eval_size outside b).
  Notation holds := (holds outside float_is finite b).
  Notation read_of := (read_of outside b).

  (** ** Well-formed tests: those the compiler makes *)
  Fixpoint wf_value (r : read_action) (v : matched_value) : Prop :=
    match v with
    | LiteralInt z bits => bits = int_to_bits z (ra_size r) (ra_endianness r) (ra_signed r)
    | LiteralString _ bytes =>
        Forall (fun x => (x < 256)%N) bytes /\ ra_size r = ConstantBits (8 * Z.of_nat (length bytes))
    | MAssign _ v => wf_value r v
    | LiteralFloat _ | MVariable _ | MDiscard _ => True
    end.
  Definition wf_test (t : test) : Prop :=
    match t with
    | Size _ o => bag_nodup (variables o)
    | Match v r => wf_value r v
    | CatchAllIsBytes _ | ReadSizeIsNotNegative _ | SegmentIsFiniteFloat _ => True
    end.

  Lemma bytes_of_bytes_bits bs : Forall (fun x => (x < 256)%N) bs -> bytes_of (bytes_bits bs) = Some (map Z.of_N bs).
  Proof.
    induction 1 as [|x bs H _ IH]; [reflexivity|].
    rewrite bytes_bits_cons. unfold byte_bits at 1. cbn [map app bytes_of].
    rewrite IH. cbn [option_map]. do 2 f_equal. exact (byte_bits_value x H).
  Qed.
  Lemma bytes_of_inj a : forall c x, bytes_of a = Some x -> bytes_of c = Some x -> a = c.
  Proof.
    induction a as [a H|b0 b1 b2 b3 b4 b5 b6 b7 a IH] using eight_ind; intros c x H1 H2.
    - destruct a as [|a0 [|a1 [|a2 [|a3 [|a4 [|a5 [|a6 [|a7 a]]]]]]]]; try discriminate; [|cbn in H; lia].
      injection H1 as <-.
      destruct c as [|c0 [|c1 [|c2 [|c3 [|c4 [|c5 [|c6 [|c7 c]]]]]]]]; try discriminate; [reflexivity|].
      cbn [bytes_of] in H2. destruct (bytes_of c); discriminate.
    - cbn [bytes_of] in H1. destruct (bytes_of a) as [y|] eqn:E; [|discriminate]. cbn [option_map] in H1.
      injection H1 as <-.
      destruct c as [|c0 [|c1 [|c2 [|c3 [|c4 [|c5 [|c6 [|c7 c]]]]]]]]; try discriminate.
      cbn [bytes_of] in H2. destruct (bytes_of c) as [z|] eqn:E2; [|discriminate]. cbn [option_map] in H2.
      assert (uint_be [c0; c1; c2; c3; c4; c5; c6; c7] = uint_be [b0; b1; b2; b3; b4; b5; b6; b7] /\ z = y) as [A B]
        by (apply cons_inj; congruence).
      subst z. apply uint_be_inj in A; [|reflexivity]. injection A as -> -> -> -> -> -> -> ->.
      rewrite (IH c y eq_refl E2). reflexivity.
  Qed.

  Lemma wf_value_bits r v bs : wf_value r v -> value_constant_bits v = Some bs ->
    size_constant_bits (ra_size r) = Some (Z.of_nat (length bs)) /\
    forall c, length c = length bs ->
      (value_matches float_is v (ra_endianness r) (ra_signed r) c = true <-> c = bs).
  Proof.
    induction v as [t|z br|t bytes|n|n|n v IH]; cbn [wf_value value_constant_bits value_matches]; try discriminate.
    - intros -> H. destruct (int_to_bits _ _ _ _) as [bits|] eqn:E; [|discriminate]. injection H as ->.
      destruct (size_constant_bits (ra_size r)) as [n|] eqn:S.
      2:{ unfold int_to_bits in E. rewrite S in E. discriminate. }
      destruct (ra_size r) as [z'| | | |]; try discriminate. cbn in S. injection S as ->.
      apply int_to_bits_reads in E as [L V]. split; [now rewrite L|].
      intros c Lc. rewrite Z.eqb_eq. split; [|intros ->; exact V].
      intros H. apply (int_of_inj (ra_endianness r) (ra_signed r)); congruence.
    - intros [F S] [= <-]. rewrite S, bytes_bits_length. split; [cbn [size_constant_bits]; f_equal; lia|].
      intros c Lc. pose proof (bytes_of_bytes_bits bytes F) as B. split.
      + destruct (bytes_of c) as [x|] eqn:E; [|discriminate].
        destruct (list_eq_dec _ _ _) as [->|]; [|discriminate]. intros _. eapply bytes_of_inj; eassumption.
      + intros ->. rewrite B. destruct (list_eq_dec _ _ _); congruence.
    - apply IH.
  Qed.

  Lemma to_usize_some z u : to_usize z = Some u -> u = z /\ 0 <= z.
  Proof. unfold to_usize. destruct (_ && _) eqn:E; [|discriminate]. intros [= <-]. lia. Qed.
  Lemma bits_eqb_eq a c : bits_eqb a c = true <-> a = c.
  Proof.
    unfold bits_eqb. revert c. induction a as [|x a IH]; intros [|y c]; cbn [length combine forallb fst snd]; try (cbn; split; congruence).
    cbn [Nat.eqb]. specialize (IH c). rewrite !andb_true_iff in *. rewrite eqb_true_iff. split.
    - intros [H1 [-> H2]]. f_equal. tauto.
    - intros [= -> ->]. tauto.
  Qed.

  (** A [Match] on constant bits at a constant place: which bits it asks for. *)
  Lemma match_holds v r o n bs : wf_value r v -> value_constant_bits v = Some bs ->
    offset_constant_bits (ra_from r) = Some o -> size_constant_bits (ra_size r) = Some n -> 0 <= o -> 0 <= n ->
    Z.of_nat (length bs) = n /\
    (holds (Match v r) = true <->
     o + n <= Z.of_nat (length b) /\ forall i, (i < length bs)%nat -> nth_error b (Z.to_nat o + i) = nth_error bs i).
  Proof.
    intros W B O S Ho Hn. destruct (wf_value_bits _ _ _ W B) as [L M]. rewrite S in L. injection L as L.
    split; [lia|]. unfold BitsSpec.holds, BitsSpec.read_of. rewrite (offset_constant outside b _ _ O).
    destruct (ra_size r) as [z| | | |] eqn:ES; try discriminate. cbn in S. injection S as ->.
    rewrite ?ev_constant. split.
    - destruct (read b o n) as [c|] eqn:E; [|discriminate]. intros H.
      apply read_spec in E as (_ & _ & E1 & E2 & E3). apply M in H; [|lia]. subst c. auto.
    - intros [H1 H2]. rewrite (proj2 (read_spec b o n bs)); [apply M; auto|]. repeat (split; [lia|]). exact H2.
  Qed.

  Lemma slice_bits_some l lo hi x : 0 <= lo -> slice_bits l lo hi = Some x ->
    Z.of_nat (length x) = hi - lo /\ hi <= Z.of_nat (length l) /\
    forall i, (i < length x)%nat -> nth_error l (Z.to_nat lo + i) = nth_error x i.
  Proof.
    unfold slice_bits. intros H0. destruct (_ && _) eqn:E; [|discriminate]. intros H.
    assert (R : BitsSpec.read l lo (hi - lo) = Some x).
    { unfold BitsSpec.read. destruct (_ && (lo + _ <=? _)) eqn:E2; [exact H|lia]. }
    apply read_spec in R as (_ & _ & R1 & R2 & R3). repeat (split; [lia|]). assumption.
  Qed.

  (** What [interfering_bits] answers, in terms of the two sets of bits. *)
  Lemma interfering_spec v r w q : wf_value r v -> wf_value q w ->
    match interfering_bits v r w q with
    | IndexPanic => False
    | NoInterference => True
    | Interferes i =>
        (interfering_bits_are_equal i = true -> first_encloses_second i = true ->
         holds (Match v r) = true -> holds (Match w q) = true) /\
        (interfering_bits_are_equal i = true -> second_encloses_first i = true ->
         holds (Match w q) = true -> holds (Match v r) = true) /\
        (interfering_bits_are_equal i = false ->
         holds (Match v r) = true -> holds (Match w q) = true -> False)
    end.
  Proof.
    intros W1 W2. unfold interfering_bits.
    destruct (offset_constant_bits (ra_from r)) as [o1|] eqn:O1; [|exact I].
    destruct (offset_constant_bits (ra_from q)) as [o2|] eqn:O2; [|exact I].
    destruct (to_usize o1) as [o1'|] eqn:U1; [|exact I]. apply to_usize_some in U1 as [-> U1].
    destruct (to_usize o2) as [o2'|] eqn:U2; [|exact I]. apply to_usize_some in U2 as [-> U2].
    destruct (Z.ltb_spec o2 o1) as [|Ho]; [exact I|].
    destruct (size_constant_bits (ra_size r)) as [n1|] eqn:S1; [|exact I].
    destruct (size_constant_bits (ra_size q)) as [n2|] eqn:S2; [|exact I].
    destruct (to_usize n1) as [n1'|] eqn:V1; [|exact I]. apply to_usize_some in V1 as [-> V1].
    destruct (to_usize n2) as [n2'|] eqn:V2; [|exact I]. apply to_usize_some in V2 as [-> V2].
    destruct (Z.leb_spec (o1 + n1) o2) as [|Hn]; [exact I|].
    destruct (value_constant_bits v) as [b1|] eqn:B1; [|exact I].
    destruct (value_constant_bits w) as [b2|] eqn:B2; [|exact I].
    destruct (match_holds v r o1 n1 b1 W1 B1 O1 S1 U1 V1) as [L1 M1].
    destruct (match_holds w q o2 n2 b2 W2 B2 O2 S2 U2 V2) as [L2 M2].
    cbv zeta. set (e := Z.min (o2 + n2) (o1 + n1)).
    destruct (slice_bits b1 (o2 - o1) (e - o1)) as [x1|] eqn:X1.
    2:{ unfold slice_bits in X1. destruct (_ && _) eqn:E; [discriminate|]. lia. }
    destruct (slice_bits b2 0 (e - o2)) as [x2|] eqn:X2.
    2:{ unfold slice_bits in X2. destruct (_ && _) eqn:E; [discriminate|]. lia. }
    apply slice_bits_some in X1 as (A1 & A2 & A3); [|lia].
    apply slice_bits_some in X2 as (C1 & C2 & C3); [|lia].
    cbn [interfering_bits_are_equal first_encloses_second second_encloses_first].
    unfold range_contains, in_range. rewrite M1, M2. clear M1 M2.
    split; [|split].
    - rewrite bits_eqb_eq. intros -> En [H1 H2]. split; [lia|]. intros i Hi.
      pose proof (A3 i ltac:(lia)) as Q1. pose proof (C3 i ltac:(lia)) as Q2.
      cbn [Z.to_nat Nat.add] in Q2. rewrite Q2, <- Q1, <- H2 by lia. f_equal. lia.
    - rewrite bits_eqb_eq. intros -> En [H1 H2]. split; [lia|]. intros i Hi.
      pose proof (A3 i ltac:(lia)) as Q1. pose proof (C3 i ltac:(lia)) as Q2.
      replace (Z.to_nat (o2 - o1) + i)%nat with i in Q1 by lia.
      cbn [Z.to_nat Nat.add] in Q2. rewrite Q1, <- Q2, <- H2 by lia. f_equal. lia.
    - intros N [G1 G2] [H1 H2]. assert (x1 = x2); [|subst; rewrite (proj2 (bits_eqb_eq x2 x2) eq_refl) in N; discriminate].
      apply nth_error_ext. intros i. destruct (Nat.lt_ge_cases i (length x1)) as [Hi|Hi].
      + rewrite <- A3, <- C3 by lia. cbn [Z.to_nat Nat.add]. rewrite <- G2, <- H2 by lia. f_equal. lia.
      + rewrite (proj2 (nth_error_None x1 i)), (proj2 (nth_error_None x2 i)) by lia. reflexivity.
  Qed.

  Lemma checking_same_value_holds v : forall w e sg c, checking_same_value v w = true ->
    value_matches float_is v e sg c = value_matches float_is w e sg c.
  Proof.
    induction v as [t|z br|t bytes|n|n|n v IH]; intros [t'|z' br'|t' bytes'|n'|n'|n' w] e sg c H;
      cbn [checking_same_value] in H; try discriminate; cbn [value_matches]; try reflexivity.
    - apply text_eqb_eq in H. now subst.
    - apply Z.eqb_eq in H. now subst.
    - apply text_eqb_eq in H. now subst.
    - now apply IH.
  Qed.
  Lemma equivalent_holds s t : equivalent_to s t = true -> holds s = holds t.
  Proof.
    destruct s as [op o|v r|o|z|r], t as [op' o'|v' r'|o'|z'|r']; cbn [equivalent_to]; try discriminate.
    - rewrite andb_true_iff, offset_eqb_eq. intros [H ->]. now destruct op, op'.
    - rewrite andb_true_iff, read_eqb_eq. intros [H ->]. unfold BitsSpec.holds.
      destruct (read_of r'); [|reflexivity]. now apply checking_same_value_holds.
    - rewrite offset_eqb_eq. now intros ->.
    - rewrite size_eqb_eq. now intros ->.
    - rewrite read_eqb_eq. now intros ->.
  Qed.

  (** ** The three implications *)
  Notation sizes_nonneg := (sizes_nonneg outside b).
  Theorem succeeds_if_succeeding_sound self known :
    wf_test self -> wf_test known -> sizes_nonneg self -> sizes_nonneg known ->
    succeeds_if_succeeding self known = true -> holds known = true -> holds self = true.
  Proof.
    intros W1 W2 P1 P2. unfold succeeds_if_succeeding.
    destruct (equivalent_to known self) eqn:E.
    - intros _. now rewrite (equivalent_holds _ _ E).
    - destruct known as [op o|v r|o|z|r], self as [op' o'|v' r'|o'|z'|r']; try discriminate.
      + cbn [wf_test BitsSpec.sizes_nonneg] in *. unfold size_succeeds_if_succeeding, BitsSpec.holds.
        destruct op, op'; try discriminate; intros H.
        * pose proof (greater_equal_eval outside b _ _ H W1 P2). lia.
        * pose proof (greater_equal_eval outside b _ _ H W1 P2). lia.
        * apply offset_eqb_eq in H. now subst.
      + intros H. pose proof (interfering_spec v r v' r' W2 W1) as S.
        destruct (interfering_bits v r v' r'); try discriminate. apply andb_true_iff in H. apply S; tauto.
  Qed.
  Theorem fails_if_failing_sound self known :
    wf_test self -> wf_test known -> sizes_nonneg self -> sizes_nonneg known ->
    fails_if_failing self known = true -> holds known = false -> holds self = false.
  Proof.
    intros W1 W2 P1 P2. unfold fails_if_failing.
    destruct (equivalent_to known self) eqn:E.
    - intros _. now rewrite (equivalent_holds _ _ E).
    - destruct known as [op o|v r|o|z|r], self as [op' o'|v' r'|o'|z'|r']; try discriminate.
      + cbn [wf_test BitsSpec.sizes_nonneg] in *. unfold size_fails_if_failing, BitsSpec.holds.
        destruct op; intros H.
        * pose proof (greater_equal_eval outside b _ _ H W2 P1). destruct op'; lia.
        * apply andb_true_iff in H as [H1 H2]. apply offset_eqb_eq in H2. subst. destruct op'; [discriminate|auto].
      + intros H K. pose proof (interfering_spec v r v' r' W2 W1) as S.
        destruct (interfering_bits v r v' r'); try discriminate. apply andb_true_iff in H.
        apply not_true_iff_false. apply not_true_iff_false in K. intros G. apply K. apply S; tauto.
  Qed.
  Theorem fails_if_succeeding_sound self known :
    wf_test self -> wf_test known -> sizes_nonneg self -> sizes_nonneg known ->
    fails_if_succeeding self known = true -> holds known = true -> holds self = false.
  Proof.
    intros W1 W2 P1 P2. unfold fails_if_succeeding.
    destruct known as [op o|v r|o|z|r], self as [op' o'|v' r'|o'|z'|r']; try discriminate.
    - cbn [wf_test BitsSpec.sizes_nonneg] in *. unfold size_fails_if_succeeding, BitsSpec.holds.
      destruct op, op'; try discriminate; intros H.
      + pose proof (greater_eval outside b _ _ H W1 P2). lia.
      + pose proof (greater_eval outside b _ _ H W2 P1). lia.
      + unfold different in H. apply orb_true_iff in H as [H|H].
        * pose proof (greater_eval outside b _ _ H W1 P2). lia.
        * pose proof (greater_eval outside b _ _ H W2 P1). lia.
    - intros H K. pose proof (interfering_spec v r v' r' W2 W1) as S.
      destruct (interfering_bits v r v' r'); try discriminate. apply negb_true_iff in H.
      apply not_true_iff_false. intros G. destruct S as (_ & _ & S). auto.
  Qed.
End Values.
