(** Proofs about the bits of literal integers. *)
From Coq Require Import ZArith NArith Bool List Lia ZifyBool ZifyNat ZifyN.
From Verif Require Import Text Strings StringsSpec Bits BitsSpec.
Import ListNotations.
Local Open Scope Z_scope.

Ltac pow_pos := match goal with |- context [2 ^ ?n] => assert (0 < 2 ^ n) by (apply Z.pow_pos_nonneg; lia) end.

Lemma uint_be_from_eq b : forall acc, uint_be_from acc b = acc * 2 ^ Z.of_nat (length b) + uint_be b.
Proof.
  unfold uint_be. induction b as [|x b IH]; intros acc.
  - cbn. lia.
  - cbn [uint_be_from length]. rewrite IH, (IH (2 * 0 + Z.b2z x)).
    rewrite Nat2Z.inj_succ, Z.pow_succ_r by lia. lia.
Qed.
Lemma uint_be_cons x b : uint_be (x :: b) = Z.b2z x * 2 ^ Z.of_nat (length b) + uint_be b.
Proof. unfold uint_be at 1. cbn [uint_be_from]. rewrite uint_be_from_eq. reflexivity. Qed.
Lemma uint_be_app a : forall b, uint_be (a ++ b) = uint_be a * 2 ^ Z.of_nat (length b) + uint_be b.
Proof.
  induction a as [|x a IH]; intros b; [reflexivity|].
  cbn [app]. rewrite !uint_be_cons, IH, app_length, Nat2Z.inj_add, Z.pow_add_r by lia. lia.
Qed.
Lemma uint_be_range b : 0 <= uint_be b < 2 ^ Z.of_nat (length b).
Proof.
  induction b as [|x b IH]; [cbn; lia|].
  rewrite uint_be_cons. cbn [length]. rewrite Nat2Z.inj_succ, Z.pow_succ_r by lia.
  destruct x; cbn [Z.b2z]; lia.
Qed.

Lemma pow256 k : 256 ^ Z.of_nat k = 2 ^ (8 * Z.of_nat k).
Proof. change 256 with (2 ^ 8). rewrite <- Z.pow_mul_r by lia. reflexivity. Qed.
Lemma pow256_S k : 256 ^ Z.of_nat (S k) = 256 * 256 ^ Z.of_nat k.
Proof. rewrite Nat2Z.inj_succ, Z.pow_succ_r by lia. reflexivity. Qed.

(** Lists of bits, eight at a time. *)
Lemma eight_ind (P : list bool -> Prop) :
  (forall b, (length b < 8)%nat -> P b) ->
  (forall b0 b1 b2 b3 b4 b5 b6 b7 b, P b -> P (b0 :: b1 :: b2 :: b3 :: b4 :: b5 :: b6 :: b7 :: b)) ->
  forall b, P b.
Proof.
  intros H0 H8 b. remember (length b) as n eqn:E. revert b E.
  induction n as [n IH] using (well_founded_induction lt_wf). intros b ->.
  destruct b as [|b0 [|b1 [|b2 [|b3 [|b4 [|b5 [|b6 [|b7 b]]]]]]]];
    try (apply H0; cbn; lia).
  apply H8. apply (IH (length b)); cbn; lia.
Qed.
Lemma uint_le_short b : (length b < 8)%nat -> uint_le b = uint_be b.
Proof.
  intros H. destruct b as [|b0 [|b1 [|b2 [|b3 [|b4 [|b5 [|b6 [|b7 b]]]]]]]]; try reflexivity.
  cbn in H. lia.
Qed.
Lemma uint_le_eight b0 b1 b2 b3 b4 b5 b6 b7 b :
  uint_le (b0 :: b1 :: b2 :: b3 :: b4 :: b5 :: b6 :: b7 :: b)
  = uint_be [b0; b1; b2; b3; b4; b5; b6; b7] + 256 * uint_le b.
Proof. reflexivity. Qed.
Lemma length8 b0 b1 b2 b3 b4 b5 b6 b7 (b : list bool) :
  Z.of_nat (length (b0 :: b1 :: b2 :: b3 :: b4 :: b5 :: b6 :: b7 :: b)) = 8 + Z.of_nat (length b).
Proof. cbn [length]. lia. Qed.
Lemma uint_le_range b : 0 <= uint_le b < 2 ^ Z.of_nat (length b).
Proof.
  induction b as [b H|b0 b1 b2 b3 b4 b5 b6 b7 b IH] using eight_ind.
  - rewrite uint_le_short by assumption. apply uint_be_range.
  - rewrite uint_le_eight, length8, Z.pow_add_r by lia. change (2 ^ 8) with 256.
    pose proof (uint_be_range [b0; b1; b2; b3; b4; b5; b6; b7]) as R.
    change (2 ^ Z.of_nat (length [b0; b1; b2; b3; b4; b5; b6; b7])) with 256 in R. lia.
Qed.
Lemma uint_of_range e b : 0 <= uint_of e b < 2 ^ Z.of_nat (length b).
Proof. destruct e; [apply uint_be_range|apply uint_le_range]. Qed.
Lemma uint_le_app k : forall a b, length a = (8 * k)%nat -> uint_le (a ++ b) = uint_le a + 256 ^ Z.of_nat k * uint_le b.
Proof.
  induction k as [|k IH]; intros a b H.
  - destruct a; [|cbn in H; lia]. cbn [app]. change (256 ^ Z.of_nat 0) with 1. change (uint_le []) with 0. lia.
  - destruct a as [|b0 [|b1 [|b2 [|b3 [|b4 [|b5 [|b6 [|b7 a]]]]]]]]; cbn [length] in H; try lia.
    cbn [app]. rewrite !uint_le_eight, IH by lia. rewrite pow256_S. lia.
Qed.

(** ** Bytes *)
Lemma byte_bits_value n : (n < 256)%N -> uint_be (byte_bits n) = Z.of_N n.
Proof.
  intros H.
  assert (A : forallb (fun k => uint_be (byte_bits (N.of_nat k)) =? Z.of_nat k) (seq 0 256) = true)
    by (vm_compute; reflexivity).
  rewrite forallb_forall in A. specialize (A (N.to_nat n)).
  rewrite N2Nat.id in A. rewrite Z.eqb_eq in A. rewrite A; [lia|]. apply in_seq. lia.
Qed.
Lemma byte_bits_length n : length (byte_bits n) = 8%nat.
Proof. reflexivity. Qed.
Lemma bytes_bits_length bs : length (bytes_bits bs) = (8 * length bs)%nat.
Proof. unfold bytes_bits. induction bs as [|x bs IH]; [reflexivity|]. cbn [flat_map]. rewrite app_length, IH. cbn [length byte_bits map]. lia. Qed.
Lemma bytes_bits_app a b : bytes_bits (a ++ b) = bytes_bits a ++ bytes_bits b.
Proof. apply flat_map_app. Qed.
Lemma bytes_bits_cons x bs : bytes_bits (x :: bs) = byte_bits x ++ bytes_bits bs.
Proof. reflexivity. Qed.

Lemma bytes_bits_one x : bytes_bits [x] = byte_bits x.
Proof. unfold bytes_bits. cbn [flat_map]. apply app_nil_r. Qed.

Lemma le_bytes_length k : forall z, length (le_bytes k z) = k.
Proof. induction k; intros; cbn; [reflexivity|]. now rewrite IHk. Qed.
Lemma le_bytes_bytes k : forall z, Forall (fun n => (n < 256)%N) (le_bytes k z).
Proof.
  induction k; intros z; cbn [le_bytes]; constructor; auto.
  pose proof (Z.mod_pos_bound z 256 ltac:(lia)). lia.
Qed.
Lemma le_bytes_snoc k : forall z, le_bytes (S k) z = le_bytes k z ++ [Z.to_N (z / 256 ^ Z.of_nat k mod 256)].
Proof.
  induction k as [|k IH]; intros z.
  - cbn. now rewrite Z.div_1_r.
  - change (le_bytes (S (S k)) z) with (Z.to_N (z mod 256) :: le_bytes (S k) (z / 256)).
    rewrite IH. cbn [le_bytes app]. rewrite pow256_S.
    rewrite Z.div_div; [reflexivity|lia|apply Z.pow_pos_nonneg; lia].
Qed.

Lemma uint_le_byte x b : uint_le (byte_bits x ++ b) = uint_be (byte_bits x) + 256 * uint_le b.
Proof. unfold byte_bits. cbn [map app]. apply uint_le_eight. Qed.

Lemma mod_256_step z k : z mod 256 + 256 * ((z / 256) mod 256 ^ Z.of_nat k) = z mod 256 ^ Z.of_nat (S k).
Proof.
  rewrite pow256_S.
  pose proof (Z.pow_pos_nonneg 256 (Z.of_nat k) ltac:(lia) ltac:(lia)).
  rewrite Z.rem_mul_r by lia. lia.
Qed.
Lemma le_value k : forall z, uint_le (bytes_bits (le_bytes k z)) = z mod 256 ^ Z.of_nat k.
Proof.
  induction k as [|k IH]; intros z.
  - cbn. now rewrite Z.mod_1_r.
  - cbn [le_bytes]. rewrite bytes_bits_cons, uint_le_byte, IH.
    pose proof (Z.mod_pos_bound z 256 ltac:(lia)).
    rewrite byte_bits_value by lia. rewrite Z2N.id by lia. apply mod_256_step.
Qed.
Lemma be_value k : forall z, uint_be (bytes_bits (rev (le_bytes k z))) = z mod 256 ^ Z.of_nat k.
Proof.
  induction k as [|k IH]; intros z.
  - cbn. now rewrite Z.mod_1_r.
  - cbn [le_bytes rev]. rewrite bytes_bits_app, uint_be_app, IH, bytes_bits_length. cbn [length].
    pose proof (Z.mod_pos_bound z 256 ltac:(lia)).
    rewrite bytes_bits_cons. cbn [bytes_bits flat_map]. rewrite app_nil_r.
    rewrite byte_bits_value by lia. rewrite Z2N.id by lia.
    change (2 ^ Z.of_nat (8 * 1)) with 256. rewrite <- mod_256_step. lia.
Qed.

(** ** Sizes *)
Lemma bigint_bits_spec z : z <> 0 -> 2 ^ (bigint_bits z - 1) <= Z.abs z < 2 ^ bigint_bits z.
Proof.
  intros H. unfold bigint_bits. set (n := Z.abs_N z). assert (n <> 0%N) by lia.
  replace (Z.abs z) with (Z.of_N n) by lia.
  assert (N.size n <> 0)%N by (destruct n; [lia|cbn; lia]).
  rewrite N.size_log2 in * by assumption.
  pose proof (N.log2_spec n ltac:(lia)) as [A B].
  replace (Z.of_N (N.succ (N.log2 n)) - 1) with (Z.of_N (N.log2 n)) by lia.
  change 2 with (Z.of_N 2). rewrite <- !N2Z.inj_pow. lia.
Qed.
Lemma bigint_bits_pos z : z <> 0 -> 1 <= bigint_bits z.
Proof. intros H. unfold bigint_bits. destruct (Z.abs_N z) eqn:E; [lia|]. cbn. lia. Qed.
Lemma bigint_bits_0 : bigint_bits 0 = 0.
Proof. reflexivity. Qed.
Lemma pow2_mono a b : 0 <= a -> a <= b -> 2 ^ a <= 2 ^ b.
Proof. intros. apply Z.pow_le_mono_r; lia. Qed.
Lemma pow2_lt a b : 0 <= b -> 2 ^ a < 2 ^ b -> a < b.
Proof. intros. eapply Z.pow_lt_mono_r_iff with (a := 2); lia. Qed.
Lemma bits_le z n : 0 <= n -> z <> 0 -> (bigint_bits z <= n <-> Z.abs z < 2 ^ n).
Proof.
  intros Hn Hz. pose proof (bigint_bits_spec z Hz) as [A B]. pose proof (bigint_bits_pos z Hz). split; intros H1.
  - pose proof (pow2_mono (bigint_bits z) n). lia.
  - assert (bigint_bits z - 1 < n) by (apply pow2_lt; lia). lia.
Qed.

Lemma trailing_pow p : forall n, Z.of_N (N.size (Npos p)) = n -> (pos_trailing_zeros p =? n - 1) = (Zpos p =? 2 ^ (n - 1)).
Proof.
  induction p as [p IH|p IH|]; intros n <-; cbn [pos_trailing_zeros N.size Pos.size].
  - rewrite Pos2Z.inj_xI. cbn [Z.of_N]. rewrite Pos2Z.inj_succ.
    assert (1 <= Zpos (Pos.size p)) by lia.
    replace (Z.succ (Z.pos (Pos.size p)) - 1) with (1 + (Z.pos (Pos.size p) - 1)) by lia.
    rewrite Z.pow_add_r by lia. change (2 ^ 1) with 2.
    destruct (Z.eqb_spec 0 (1 + (Z.pos (Pos.size p) - 1))), (Z.eqb_spec (2 * Z.pos p + 1) (2 * 2 ^ (Z.pos (Pos.size p) - 1))); lia.
  - rewrite Pos2Z.inj_xO. cbn [Z.of_N]. rewrite Pos2Z.inj_succ.
    specialize (IH _ eq_refl). cbn [N.size Z.of_N] in IH.
    replace (Z.succ (Z.pos (Pos.size p)) - 1) with (1 + (Z.pos (Pos.size p) - 1)) by lia.
    rewrite Z.pow_add_r by lia. change (2 ^ 1) with 2.
    destruct (Z.eqb_spec (pos_trailing_zeros p) (Z.pos (Pos.size p) - 1)); symmetry in IH;
      [rewrite Z.eqb_eq in IH|rewrite Z.eqb_neq in IH];
      destruct (Z.eqb_spec (1 + pos_trailing_zeros p) (1 + (Z.pos (Pos.size p) - 1))),
        (Z.eqb_spec (2 * Z.pos p) (2 * 2 ^ (Z.pos (Pos.size p) - 1))); lia.
  - reflexivity.
Qed.

(** The integers that fit in [n] bits. *)
Definition fits (v n : Z) (signed : bool) : Prop :=
  if signed then - 2 ^ (n - 1) <= v < 2 ^ (n - 1) else 0 <= v < 2 ^ n.

Lemma representable_spec v n signed : 0 <= n <= u32_max ->
  representable_with_bits v n signed = true <-> 1 <= n /\ fits v n signed.
Proof.
  intros Hn. unfold representable_with_bits.
  destruct (Z.eqb_spec n 0) as [->|Hn0]; [split; [discriminate|lia]|].
  assert (U : forall r, (if r <=? u32_max then r <=? n else false) = true <-> r <= n).
  { intros r. destruct (Z.leb_spec r u32_max); lia. }
  assert (P : 0 < 2 ^ (n - 1)) by (apply Z.pow_pos_nonneg; lia).
  assert (D : 2 ^ n = 2 * 2 ^ (n - 1)).
  { rewrite <- Z.pow_succ_r by lia. f_equal. lia. }
  destruct v as [|p|p]; unfold fits.
  - rewrite U. destruct signed; lia.
  - destruct signed; rewrite U.
    + pose proof (bits_le (Zpos p) (n - 1) ltac:(lia) ltac:(lia)). lia.
    + pose proof (bits_le (Zpos p) n ltac:(lia) ltac:(lia)). lia.
  - destruct signed; [|split; [discriminate|lia]].
    pose proof (trailing_pow p (bigint_bits (Zneg p)) eq_refl) as T. rewrite T. clear T.
    pose proof (bits_le (Zneg p) (n - 1) ltac:(lia) ltac:(lia)) as B1.
    pose proof (bits_le (Zneg p) n ltac:(lia) ltac:(lia)) as B2.
    pose proof (bigint_bits_spec (Zneg p) ltac:(lia)) as S.
    pose proof (bigint_bits_pos (Zneg p) ltac:(lia)) as Q.
    change (Z.abs (Zneg p)) with (Zpos p) in *.
    destruct (Z.eqb_spec (Zpos p) (2 ^ (bigint_bits (Zneg p) - 1))) as [E|E]; rewrite U.
    + split; intros H; [|].
      * pose proof (pow2_mono (bigint_bits (Zneg p) - 1) (n - 1)). lia.
      * assert (2 ^ (bigint_bits (Z.neg p) - 1) < 2 ^ n) by lia.
        assert (bigint_bits (Z.neg p) - 1 < n) by (apply pow2_lt; lia). lia.
    + split; intros H.
      * lia.
      * assert (~ n < bigint_bits (Zneg p) + 1); [|lia]. intros L.
        assert (n = bigint_bits (Z.neg p)) by lia. subst n. lia.
Qed.

Lemma byte_count_pos v : 1 <= byte_count v.
Proof. unfold byte_count. lia. Qed.
Lemma byte_count_fits v : Z.abs v < 2 ^ (8 * byte_count v).
Proof.
  destruct (Z.eq_dec v 0) as [->|H].
  - cbn. lia.
  - apply bits_le; [pose proof (byte_count_pos v); lia|assumption|].
    unfold byte_count. Z.to_euclidean_division_equations. lia.
Qed.
(** No shorter whole number of bytes would do. *)
Lemma byte_count_least v k : 1 <= k -> Z.abs v < 2 ^ (8 * k) -> byte_count v <= k.
Proof.
  intros Hk H. destruct (Z.eq_dec v 0) as [->|N].
  - unfold byte_count. rewrite bigint_bits_0. change ((0 + 7) / 8) with 0. lia.
  - apply bits_le in H; [|lia|assumption]. unfold byte_count. Z.to_euclidean_division_equations. lia.
Qed.

Definition bytes_needed (v : Z) (signed : bool) : Z := if signed then signed_byte_count v else byte_count v.
Lemma bytes_needed_pos v signed : 1 <= bytes_needed v signed.
Proof.
  unfold bytes_needed, signed_byte_count. pose proof (byte_count_pos v).
  destruct signed; [|assumption].
  destruct (_ && _); lia.
Qed.
Lemma bytes_needed_fits v n signed : 1 <= n -> fits v n signed ->
  fits v (8 * bytes_needed v signed) signed /\ forall k, 1 <= k -> fits v (8 * k) signed -> bytes_needed v signed <= k.
Proof.
  intros Hn F. unfold bytes_needed, fits in *.
  pose proof (byte_count_fits v) as B. pose proof (byte_count_pos v) as P.
  assert (D : forall m, 1 <= m -> 2 ^ m = 2 * 2 ^ (m - 1)).
  { intros m Hm. rewrite <- Z.pow_succ_r by lia. f_equal. lia. }
  destruct signed.
  - unfold signed_byte_count.
    pose proof (D (8 * byte_count v) ltac:(lia)) as D1.
    destruct (_ && _) eqn:E.
    + assert (2 ^ (8 * byte_count v) <= 2 ^ (8 * (byte_count v + 1) - 1)) by (apply pow2_mono; lia).
      split; [lia|]. intros k Hk Fk.
      assert (~ k < byte_count v + 1); [|lia]. intros L.
      assert (byte_count v <= k).
      { apply byte_count_least; [lia|]. pose proof (D (8 * k) ltac:(lia)). lia. }
      assert (k = byte_count v) by lia. subst k. lia.
    + split; [lia|]. intros k Hk Fk. apply byte_count_least; [lia|].
      pose proof (D (8 * k) ltac:(lia)). lia.
  - split; [lia|]. intros k Hk Fk. apply byte_count_least; lia.
Qed.

Lemma int_to_bytes_eq v e signed : (signed = false -> 0 <= v) ->
  int_to_bytes v e signed =
  match e with
  | Big => rev (le_bytes (Z.to_nat (bytes_needed v signed)) v)
  | Little => le_bytes (Z.to_nat (bytes_needed v signed)) v
  end.
Proof.
  intros H. unfold int_to_bytes, to_bytes_le, to_signed_bytes_le, bytes_needed.
  destruct e, signed; try reflexivity; rewrite Z.abs_eq by auto; reflexivity.
Qed.

(** ** Padding and cutting *)
Lemma uint_be_repeat x n : uint_be (repeat x n) = if x then 2 ^ Z.of_nat n - 1 else 0.
Proof.
  induction n as [|n IH]; [destruct x; reflexivity|].
  cbn [repeat]. rewrite uint_be_cons, repeat_length, IH, Nat2Z.inj_succ, Z.pow_succ_r by lia.
  destruct x; cbn [Z.b2z]; lia.
Qed.
Lemma uint_le_repeat x n : uint_le (repeat x n) = if x then 2 ^ Z.of_nat n - 1 else 0.
Proof.
  induction n as [n IH] using (well_founded_induction lt_wf).
  destruct (Nat.lt_ge_cases n 8) as [L|L].
  - rewrite uint_le_short by (rewrite repeat_length; assumption). apply uint_be_repeat.
  - destruct n as [|[|[|[|[|[|[|[|n]]]]]]]]; try lia.
    cbn [repeat]. rewrite uint_le_eight, IH by lia.
    replace (Z.of_nat (S (S (S (S (S (S (S (S n))))))))) with (8 + Z.of_nat n) by lia.
    rewrite Z.pow_add_r by lia. change (2 ^ 8) with 256.
    destruct x.
    + change (uint_be [true; true; true; true; true; true; true; true]) with 255. lia.
    + change (uint_be [false; false; false; false; false; false; false; false]) with 0. lia.
Qed.
Lemma uint_be_skipn b : forall n, (n <= length b)%nat ->
  uint_be (skipn n b) = uint_be b mod 2 ^ Z.of_nat (length b - n).
Proof.
  intros n H. rewrite <- (firstn_skipn n b) at 2. rewrite uint_be_app, skipn_length.
  rewrite Z.add_comm, Z.mod_add by (apply Z.pow_nonzero; lia).
  symmetry. apply Z.mod_small. pose proof (uint_be_range (skipn n b)) as R. now rewrite skipn_length in R.
Qed.
Lemma uint_be_firstn_8 x r : (0 < r < 8)%nat -> (x < 256)%N ->
  uint_be (firstn r (byte_bits (N.shiftl x (N.of_nat (8 - r)) mod 256)%N)) = Z.of_N x mod 2 ^ Z.of_nat r.
Proof.
  intros Hr Hx.
  assert (A : forallb (fun r => forallb (fun x =>
     uint_be (firstn r (byte_bits (N.shiftl (N.of_nat x) (N.of_nat (8 - r)) mod 256)%N)) =? Z.of_nat x mod 2 ^ Z.of_nat r)
     (seq 0 256)) (seq 1 7) = true) by (vm_compute; reflexivity).
  rewrite forallb_forall in A. specialize (A r ltac:(apply in_seq; lia)). cbv beta in A.
  rewrite forallb_forall in A. specialize (A (N.to_nat x) ltac:(apply in_seq; lia)). cbv beta in A.
  rewrite N2Nat.id in A. rewrite Z.eqb_eq in A. rewrite A. f_equal. lia.
Qed.
Lemma shift_last_snoc s bs x : shift_last s (bs ++ [x]) = bs ++ [N.shiftl x s mod 256]%N.
Proof.
  induction bs as [|y bs IH]; [reflexivity|].
  cbn [app shift_last]. rewrite IH. destruct (bs ++ [x]) eqn:E; [destruct bs; discriminate|reflexivity].
Qed.

Lemma mod_mod_pow v a b : 0 <= b <= a -> v mod 2 ^ a mod 2 ^ b = v mod 2 ^ b.
Proof.
  intros H. replace a with (b + (a - b)) by lia. rewrite Z.pow_add_r by lia.
  assert (0 < 2 ^ b) by (apply Z.pow_pos_nonneg; lia).
  assert (0 < 2 ^ (a - b)) by (apply Z.pow_pos_nonneg; lia).
  rewrite Z.rem_mul_r by lia. rewrite Z.mul_comm, Z.mod_add by lia. apply Z.mod_mod. lia.
Qed.

Lemma BitsOk_inj a b : BitsOk a = BitsOk b -> b = a.
Proof. congruence. Qed.
(** The core: the bits spell the number modulo the size. *)
Lemma int_to_bits_value v n e signed b :
  int_to_bits v (ConstantBits n) e signed = BitsOk b ->
  Z.of_nat (length b) = n /\ 1 <= n <= max_bits_interference /\ fits v n signed /\ uint_of e b = v mod 2 ^ n.
Proof.
  unfold int_to_bits. cbn [size_constant_bits].
  destruct ((0 <=? n) && (n <=? u32_max)) eqn:R; cbn [negb]; [|discriminate].
  destruct (representable_with_bits v n signed) eqn:RP; cbn [negb]; [|discriminate].
  destruct (Z.ltb_spec max_bits_interference n) as [M|M]; [discriminate|].
  apply representable_spec in RP; [|lia]. destruct RP as [N1 F].
  intros E.
  assert (U : signed = false -> 0 <= v) by (intros ->; unfold fits in F; lia).
  destruct (bytes_needed_fits v n signed N1 F) as [BF BL].
  pose proof (bytes_needed_pos v signed) as BP.
  rewrite int_to_bytes_eq in E by assumption.
  remember (bytes_needed v signed) as K eqn:EK. remember (Z.to_nat K) as k eqn:Ek.
  assert (KK : K = Z.of_nat k) by lia.
  assert (L8 : length (match e with Big => rev (le_bytes k v) | Little => le_bytes k v end) = k).
  { destruct e; rewrite ?rev_length; apply le_bytes_length. }
  rewrite L8 in E. remember (Z.to_nat n) as m eqn:Em. assert (nm : n = Z.of_nat m) by lia.
  assert (BV : uint_of e (bytes_bits (match e with Big => rev (le_bytes k v) | Little => le_bytes k v end)) = v mod 2 ^ (8 * K)).
  { rewrite KK, <- pow256. destruct e; [apply be_value|apply le_value]. }
  assert (LB : length (bytes_bits (match e with Big => rev (le_bytes k v) | Little => le_bytes k v end)) = (8 * k)%nat).
  { now rewrite bytes_bits_length, L8. }
  assert (PAD : 8 * K < n -> v mod 2 ^ (8 * K) + (if v <? 0 then 2 ^ n - 2 ^ (8 * K) else 0) = v mod 2 ^ n).
  { intros L. assert (P8 : 0 < 2 ^ (8 * K)) by (apply Z.pow_pos_nonneg; lia).
    assert (PN : 2 ^ (8 * K) <= 2 ^ n) by (apply pow2_mono; lia).
    assert (2 ^ (8 * K) = 2 * 2 ^ (8 * K - 1)) by (rewrite <- Z.pow_succ_r by lia; f_equal; lia).
    unfold fits in BF.
    destruct (Z.ltb_spec v 0).
    - destruct signed; [|lia].
      replace (v mod 2 ^ (8 * K)) with (v + 2 ^ (8 * K)).
      2:{ apply Z.mod_unique with (-1); lia. }
      apply Z.mod_unique with (-1); lia.
    - rewrite !Z.mod_small; destruct signed; lia. }
  destruct (Nat.compare_spec (k * 8) m) as [C|C|C].
  - (* exact *)
    assert (E' : b = bytes_bits (match e with Big => rev (le_bytes k v) | Little => le_bytes k v end))
      by (destruct e; congruence).
    subst b. rewrite BV, LB. repeat split; try lia; [assumption|]. f_equal. f_equal. lia.
  - (* shorter: padding *)
    specialize (PAD ltac:(lia)).
    destruct e; injection E as <-; cbn [uint_of] in *.
    + rewrite app_length, repeat_length, LB, uint_be_app, uint_be_repeat, LB, BV.
      repeat split; try lia; [assumption|]. rewrite <- PAD.
      replace (2 ^ Z.of_nat (8 * k)) with (2 ^ (8 * K)) by (f_equal; lia).
      replace (2 ^ n) with (2 ^ Z.of_nat (m - k * 8) * 2 ^ (8 * K)).
      2:{ rewrite <- Z.pow_add_r by lia. f_equal. lia. }
      destruct (v <? 0); lia.
    + rewrite app_length, repeat_length, LB, (uint_le_app k), uint_le_repeat, BV by lia.
      repeat split; try lia; [assumption|]. rewrite <- PAD.
      rewrite pow256, <- KK.
      replace (2 ^ n) with (2 ^ Z.of_nat (m - k * 8) * 2 ^ (8 * K)).
      2:{ rewrite <- Z.pow_add_r by lia. f_equal. lia. }
      destruct (v <? 0); lia.
  - (* longer: cutting *)
    assert (k8 : (8 * (k - 1) < m)%nat).
    { (* otherwise fewer bytes would do *)
      destruct (Nat.le_gt_cases m (8 * (k - 1))) as [L|L]; [exfalso|assumption].
      assert (1 <= K - 1) by lia.
      assert (fits v (8 * (K - 1)) signed).
      { unfold fits in F |- *. pose proof (pow2_mono n (8 * (K - 1))). pose proof (pow2_mono (n - 1) (8 * (K - 1) - 1)).
        destruct signed; lia. }
      pose proof (BL (K - 1)). lia. }
    clear R PAD BL BF U.
    destruct e; cbn [uint_of] in *.
    + injection E as <-. rewrite skipn_length, LB.
      repeat split; try lia; [assumption|].
      rewrite uint_be_skipn by lia. rewrite LB, BV.
      replace (Z.of_nat (8 * k - (k * 8 - m))) with n by lia.
      apply mod_mod_pow. lia.
    + assert (r0 : (m mod 8 <> 0)%nat).
      { intros Z0. apply Nat.mod_divides in Z0; [|lia]. destruct Z0 as [q Hq]. lia. }
      apply Nat.eqb_neq in r0. rewrite r0 in E. apply Nat.eqb_neq in r0. apply BitsOk_inj in E. subst b.
      destruct k as [|k]; [lia|]. rewrite le_bytes_snoc, shift_last_snoc, bytes_bits_app.
      replace (S k - 1)%nat with k in k8 by lia.
      assert (Hr : (m = 8 * k + m mod 8)%nat).
      { pose proof (Nat.div_mod m 8 ltac:(lia)). pose proof (Nat.mod_upper_bound m 8 ltac:(lia)).
        assert (m / 8 = k)%nat by nia. lia. }
      pose proof (Nat.mod_upper_bound m 8 ltac:(lia)) as Ub. remember (m mod 8)%nat as r eqn:Er in *. clear Er.
      rewrite firstn_app, firstn_all2, bytes_bits_length, le_bytes_length
        by (rewrite bytes_bits_length, le_bytes_length; lia).
      replace (m - 8 * k)%nat with r by lia.
      rewrite bytes_bits_one. clear BV LB.
      remember (Z.to_N (v / 256 ^ Z.of_nat k mod 256)) as x eqn:xE.
      pose proof (Z.mod_pos_bound (v / 256 ^ Z.of_nat k) 256 ltac:(lia)) as MB.
      assert (Hx : (x < 256)%N) by lia.
      assert (Lr : length (firstn r (byte_bits (N.shiftl x (N.of_nat (8 - r)) mod 256)%N)) = r).
      { rewrite firstn_length, byte_bits_length. lia. }
      rewrite app_length, Lr, bytes_bits_length, le_bytes_length. 
      repeat split; try lia; [assumption|].
      rewrite (uint_le_app k) by (rewrite bytes_bits_length, le_bytes_length; lia).
      rewrite (uint_le_short (firstn r _)) by lia. rewrite uint_be_firstn_8 by lia.
      rewrite le_value, !pow256. rewrite xE, Z2N.id by lia.
      replace (n) with (8 * Z.of_nat k + Z.of_nat r) by lia.
      rewrite Z.pow_add_r by lia.
      assert (0 < 2 ^ (8 * Z.of_nat k)) by (apply Z.pow_pos_nonneg; lia).
      assert (0 < 2 ^ (Z.of_nat r)) by (apply Z.pow_pos_nonneg; lia).
      rewrite Z.rem_mul_r by lia. rewrite pow256. f_equal. f_equal.
      change 256 with (2 ^ 8). apply mod_mod_pow. lia.
Qed.

Lemma int_of_fits v n e signed b : Z.of_nat (length b) = n -> 1 <= n ->
  (fits v n signed /\ uint_of e b = v mod 2 ^ n) <-> int_of e signed b = v.
Proof.
  intros L N1. destruct b as [|x b]; [cbn in L; lia|]. unfold int_of. rewrite L.
  remember (x :: b) as b0. pose proof (uint_of_range e b0) as R. rewrite L in R.
  set (u := uint_of e b0) in *. unfold fits.
  assert (D : 2 ^ n = 2 * 2 ^ (n - 1)) by (rewrite <- Z.pow_succ_r by lia; f_equal; lia).
  destruct signed; cbn [andb].
  - destruct (Z.leb_spec (2 ^ (n - 1)) u).
    + split.
      * intros [F E]. destruct (Z.ltb_spec v 0).
        -- assert (v mod 2 ^ n = v + 2 ^ n) by (symmetry; apply Z.mod_unique with (-1); lia). lia.
        -- rewrite Z.mod_small in E by lia. lia.
      * intros <-. split; [lia|]. apply Z.mod_unique with (-1); lia.
    + split.
      * intros [F E]. destruct (Z.ltb_spec v 0).
        -- assert (v mod 2 ^ n = v + 2 ^ n) by (symmetry; apply Z.mod_unique with (-1); lia). lia.
        -- rewrite Z.mod_small in E by lia. lia.
      * intros <-. split; [lia|]. now rewrite Z.mod_small by lia.
  - split.
    + intros [F E]. now rewrite Z.mod_small in E by lia.
    + intros <-. split; [lia|]. now rewrite Z.mod_small by lia.
Qed.

Lemma int_to_bits_reads v n e signed b : int_to_bits v (ConstantBits n) e signed = BitsOk b ->
  Z.of_nat (length b) = n /\ int_of e signed b = v.
Proof.
  intros H. apply int_to_bits_value in H as (L & N & F & U). split; [assumption|].
  apply (int_of_fits v n); [assumption|lia|auto].
Qed.

(** Bits are determined by what they spell. *)
Lemma uint_be_inj a : forall b, length a = length b -> uint_be a = uint_be b -> a = b.
Proof.
  induction a as [|x a IH]; intros [|y b] L E; try discriminate; [reflexivity|].
  injection L as L. rewrite !uint_be_cons, L in E.
  pose proof (uint_be_range a). pose proof (uint_be_range b). rewrite L in *.
  destruct x, y; cbn [Z.b2z] in E; try lia; f_equal; apply IH; lia.
Qed.
Lemma uint_le_inj a : forall b, length a = length b -> uint_le a = uint_le b -> a = b.
Proof.
  induction a as [a H|b0 b1 b2 b3 b4 b5 b6 b7 a IH] using eight_ind; intros b L E.
  - rewrite !uint_le_short in E by lia. now apply uint_be_inj.
  - destruct b as [|c0 [|c1 [|c2 [|c3 [|c4 [|c5 [|c6 [|c7 b]]]]]]]]; try (cbn [length] in L; lia).
    rewrite !uint_le_eight in E. cbn [length] in L.
    pose proof (uint_be_range [b0; b1; b2; b3; b4; b5; b6; b7]) as R1.
    pose proof (uint_be_range [c0; c1; c2; c3; c4; c5; c6; c7]) as R2.
    change (2 ^ Z.of_nat _) with 256 in R1. change (2 ^ Z.of_nat _) with 256 in R2.
    assert (E1 : uint_be [b0; b1; b2; b3; b4; b5; b6; b7] = uint_be [c0; c1; c2; c3; c4; c5; c6; c7]) by lia.
    apply uint_be_inj in E1; [|reflexivity]. injection E1 as -> -> -> -> -> -> -> ->.
    rewrite (IH b) by lia. reflexivity.
Qed.
Lemma int_of_inj e signed a b : length a = length b -> int_of e signed a = int_of e signed b -> a = b.
Proof.
  intros L E. destruct a as [|x a]; [destruct b; [reflexivity|discriminate]|].
  destruct b as [|y b]; [discriminate|].
  set (n := Z.of_nat (length (x :: a))).
  assert (A := proj2 (int_of_fits (int_of e signed (x :: a)) n e signed (x :: a) eq_refl ltac:(unfold n; cbn [length]; lia)) eq_refl).
  assert (B := proj2 (int_of_fits (int_of e signed (y :: b)) n e signed (y :: b) ltac:(unfold n; now rewrite L) ltac:(unfold n; cbn [length]; lia)) eq_refl).
  rewrite E in A. destruct A as [_ A], B as [_ B]. rewrite <- B in A.
  destruct e; [now apply uint_be_inj|now apply uint_le_inj].
Qed.

(** Which error is reported when. *)
Lemma int_to_bits_total v n e signed :
  (exists b, int_to_bits v (ConstantBits n) e signed = BitsOk b) <->
  1 <= n <= max_bits_interference /\ fits v n signed.
Proof.
  split.
  - intros [b H]. apply int_to_bits_value in H. tauto.
  - intros [N F]. unfold int_to_bits. cbn [size_constant_bits].
    unfold max_bits_interference, u32_max in *.
    destruct (Z.leb_spec 0 n); [|lia]. destruct (Z.leb_spec n 4294967295); [|lia]. cbn [andb negb].
    assert (RP : representable_with_bits v n signed = true) by (apply representable_spec; unfold u32_max; [lia|split; [lia|assumption]]).
    rewrite RP. cbn [negb]. destruct (Z.ltb_spec 65535 n); [lia|]. eexists. reflexivity.
Qed.
Lemma int_to_bits_unrepresentable v n e signed s :
  int_to_bits v (ConstantBits n) e signed = BitsErr (Unrepresentable s) <->
  s = n /\ 0 <= n <= u32_max /\ ~ (1 <= n /\ fits v n signed).
Proof.
  unfold int_to_bits. cbn [size_constant_bits].
  destruct ((0 <=? n) && (n <=? u32_max)) eqn:R; cbn [negb].
  2:{ split; [discriminate|]. intros. lia. }
  assert (RS := representable_spec v n signed ltac:(lia)).
  destruct (representable_with_bits v n signed); cbn [negb].
  - split; [destruct (max_bits_interference <? n); discriminate|]. intros (_ & _ & X). tauto.
  - split; [intros [= <-]|intros (-> & _)]; [|reflexivity].
    split; [reflexivity|]. split; [lia|]. intros Y. apply RS in Y. discriminate.
Qed.

(** Every number in range is spelled by some bits. *)
Lemma uint_be_surj n : forall z, 0 <= z < 2 ^ Z.of_nat n -> exists b, length b = n /\ uint_be b = z.
Proof.
  induction n as [|n IH]; intros z H.
  - exists []. split; [reflexivity|]. cbn in H |- *. unfold uint_be. cbn. lia.
  - rewrite Nat2Z.inj_succ, Z.pow_succ_r in H by lia. set (h := 2 ^ Z.of_nat n) in *.
    destruct (Z.leb_spec h z) as [L|L].
    + destruct (IH (z - h)) as (b & Lb & Vb); [lia|]. exists (true :: b). split; [cbn; lia|].
      rewrite uint_be_cons, Lb, Vb. fold h. cbn [Z.b2z]. lia.
    + destruct (IH z) as (b & Lb & Vb); [lia|]. exists (false :: b). split; [cbn; lia|].
      rewrite uint_be_cons, Lb, Vb. fold h. cbn [Z.b2z]. lia.
Qed.
Lemma uint_le_surj n : forall z, 0 <= z < 2 ^ Z.of_nat n -> exists b, length b = n /\ uint_le b = z.
Proof.
  induction n as [n IH] using (well_founded_induction lt_wf). intros z H.
  destruct (Nat.lt_ge_cases n 8) as [L|L].
  - destruct (uint_be_surj n z H) as (b & Lb & Vb). exists b. split; [assumption|].
    now rewrite uint_le_short by lia.
  - replace (Z.of_nat n) with (8 + Z.of_nat (n - 8)) in H by lia. rewrite Z.pow_add_r in H by lia.
    change (2 ^ 8) with 256 in H.
    destruct (IH (n - 8)%nat ltac:(lia) (z / 256)) as (b & Lb & Vb).
    { split; [apply Z.div_pos; lia|apply Z.div_lt_upper_bound; lia]. }
    destruct (uint_be_surj 8 (z mod 256)) as (c & Lc & Vc); [apply Z.mod_pos_bound; reflexivity|].
    exists (c ++ b). split; [rewrite app_length; lia|].
    destruct c as [|c0 [|c1 [|c2 [|c3 [|c4 [|c5 [|c6 [|c7 [|c8 c]]]]]]]]]; try discriminate Lc.
    cbn [app uint_le]. rewrite Vc, Vb. pose proof (Z.div_mod z 256). lia.
Qed.
Lemma fits_spelled v n e signed : 1 <= n ->
  fits v n signed <-> exists b, Z.of_nat (length b) = n /\ int_of e signed b = v.
Proof.
  intros N. split.
  - intros F. assert (0 <= v mod 2 ^ Z.of_nat (Z.to_nat n) < 2 ^ Z.of_nat (Z.to_nat n)) as M.
    { apply Z.mod_pos_bound. apply Z.pow_pos_nonneg; lia. }
    assert (exists b, length b = Z.to_nat n /\ uint_of e b = v mod 2 ^ Z.of_nat (Z.to_nat n)) as (b & L & U).
    { destruct e; [apply uint_be_surj|apply uint_le_surj]; assumption. }
    exists b. split; [lia|]. rewrite Z2Nat.id in U by lia. apply (int_of_fits v n e signed b); [lia|assumption|auto].
  - intros (b & L & V). apply (int_of_fits v n e signed b) in V; [|assumption|assumption]. apply V.
Qed.
