(** C23, C24 and C46: bit array patterns. *)
From Coq Require Import ZArith NArith Bool String List Lia.
From Verif Require Import Text Strings StringsSpec Bits BitsSpec BitsIntProofs BitsProofs BitsMatchProofs.
Import ListNotations.
Local Open Scope Z_scope.

(** ** C24: the bits of a literal integer *)

(** The bits that stand for a literal are the only ones of their length that spell it. *)
Theorem C24_literal_bits_spell_the_literal : forall v n e signed b,
  int_to_bits v (ConstantBits n) e signed = BitsOk b ->
  forall c, Z.of_nat (List.length c) = n -> (int_of e signed c = v <-> c = b).
Proof.
  intros v n e signed b H c L. apply int_to_bits_reads in H as [Lb V]. split; [|now intros ->].
  intros E. apply (int_of_inj e signed); [lia|congruence].
Qed.
Print Assumptions C24_literal_bits_spell_the_literal.

Theorem C24_literal_bits_have_the_size : forall v n e signed b,
  int_to_bits v (ConstantBits n) e signed = BitsOk b ->
  Z.of_nat (List.length b) = n /\ int_of e signed b = v.
Proof. exact int_to_bits_reads. Qed.
Print Assumptions C24_literal_bits_have_the_size.

(** A literal is declared unrepresentable exactly when no bits of its size spell it. *)
Theorem C24_unrepresentable_iff_no_bits : forall v n e signed, 1 <= n <= 4294967295 ->
  (int_to_bits v (ConstantBits n) e signed = BitsErr (Unrepresentable n) <->
   forall c, Z.of_nat (List.length c) = n -> int_of e signed c <> v).
Proof.
  intros v n e signed N. rewrite int_to_bits_unrepresentable, (fits_spelled v n e signed) by lia. split.
  - intros (_ & _ & H) c L V. apply H. split; [lia|]. now exists c.
  - intros H. split; [reflexivity|]. split; [unfold u32_max; lia|]. intros (_ & c & L & V). exact (H c L V).
Qed.
Print Assumptions C24_unrepresentable_iff_no_bits.

(** Up to 65535 bits there is always an answer; above, only the unrepresentable are told. *)
Theorem C24_answers : forall v n e signed, 1 <= n ->
  match int_to_bits v (ConstantBits n) e signed with
  | BitsOk _ => n <= 65535
  | BitsErr (Unrepresentable s) => s = n /\ n <= 4294967295
  | BitsErr ExceedsMaximumSize => 65535 < n
  | BitsErr NonConstantSize => False
  end.
Proof.
  intros v n e signed N. destruct (int_to_bits v (ConstantBits n) e signed) as [b|[s| |]] eqn:E.
  - pose proof (proj1 (int_to_bits_total v n e signed) (ex_intro _ b E)) as [H _]. unfold max_bits_interference in H. lia.
  - apply int_to_bits_unrepresentable in E. unfold u32_max in E. lia.
  - unfold int_to_bits in E. cbn [size_constant_bits] in E. unfold u32_max, max_bits_interference in E.
    destruct ((0 <=? n) && (n <=? 4294967295)) eqn:A; cbn [negb] in E; [|lia].
    destruct (negb _); [discriminate|]. destruct (Z.ltb_spec 65535 n); [assumption|discriminate].
  - unfold int_to_bits in E. cbn [size_constant_bits] in E.
    destruct (negb _); [discriminate|]. destruct (negb _); [discriminate|].
    destruct (max_bits_interference <? n); discriminate.
Qed.
Print Assumptions C24_answers.

Example C24_example :
  int_to_bits (-2) (ConstantBits 10) Little true =
    BitsOk [true; true; true; true; true; true; true; false; true; true]
  /\ int_of Little true [true; true; true; true; true; true; true; false; true; true] = -2
  /\ int_to_bits 256 (ConstantBits 8) Big false = BitsErr (Unrepresentable 8)
  /\ int_to_bits (-1) (ConstantBits 8) Big false = BitsErr (Unrepresentable 8).
Proof. repeat split. Qed.

(** ** C46: the tests of a pattern *)

(** Running the tests is matching segment by segment, with the same bindings. *)
Theorem C46_tests_match_segment_by_segment : forall outside float_is finite b segments bound,
  valid_segments segments ->
  (matches float_is finite outside segments b bound <->
   forallb (holds outside float_is finite b) (bit_array_to_tests segments) = true /\
   bound = bindings outside b (bit_array_to_tests segments)).
Proof. intros. now apply tests_spec. Qed.
Print Assumptions C46_tests_match_segment_by_segment.

(** [<<len, "é":utf8, rest:bytes-size(len), more:bits>>] on [<<1, "é", 7, 5:3>>]. *)
Definition wibble_segments : list segment :=
  [ Segment (PVariable (str "len")) [OSize (SInt 8) true] TInt;
    Segment (PString [233]%N) [OUtf8] TString;
    Segment (PVariable (str "rest")) [OBytes; OSize (SVariable (str "len")) false] TBitArray;
    Segment (PAssign (str "more") (PDiscard (str "_"))) [OBits] TBitArray ].
Definition wibble_bits : list bool := bytes_bits [1; 195; 169; 7]%N ++ [true; false; true].
Lemma wibble_segments_are_valid : valid_segments wibble_segments.
Proof.
  assert (forall s, (List.length (filter is_size (options s)) <= 1)%nat ->
    (List.length (filter is_unit (options s)) <= 1)%nat ->
    (forall t, strip (value s) <> PString t) -> (forall n p, value s = PAssign n p -> names p = []) -> valid_segment s) as A.
  { intros s H1 H2 H3 H4. split; [assumption|]. split; [assumption|]. split; [|assumption]. intros t E. destruct (H3 t E). }
  split; [apply A; cbn; auto; discriminate|]. split; [reflexivity|].
  split.
  { split; [cbn; auto|]. split; [cbn; auto|]. split; [|discriminate]. intros t [= <-].
    split; [repeat constructor|]. split; [reflexivity|]. cbn. intuition discriminate. }
  split; [reflexivity|].
  split; [apply A; cbn; auto; discriminate|]. split; [reflexivity|].
  apply A; cbn; auto; try discriminate. now intros n p [= <- <-].
Qed.
Example C46_example : exists bound,
  matches (fun _ _ _ => false) (fun _ _ => true) (fun _ => 0) wibble_segments wibble_bits bound
  /\ In (str "rest", bytes_bits [7]%N) bound /\ In (str "more", [true; false; true]) bound.
Proof.
  exists (bindings (fun _ => 0) wibble_bits (bit_array_to_tests wibble_segments)). split.
  - apply C46_tests_match_segment_by_segment; [exact wibble_segments_are_valid|]. split; reflexivity.
  - vm_compute. tauto.
Qed.

(** ** C23: what one test says about another *)
Section C23.
  Context (outside : text -> Z) (float_is : text -> endianness -> list bool -> bool)
          (finite : endianness -> list bool -> bool) (b : list bool).

  (** Two tests of two patterns for the same bit array. *)
  Definition tests_of (segments : list segment) (t : test) : Prop :=
    valid_segments segments /\ In t (bit_array_to_tests segments).

  Lemma tests_of_wf segments t : tests_of segments t -> wf_test t.
  Proof. intros [V I]. pose proof (tests_wf segments V) as F. rewrite Forall_forall in F. auto. Qed.
End C23.

(** As long as the size variables of the compared offsets are not negative, every
    conclusion of the compiler is right. *)
Theorem C23_success_follows_from_success_partial :
  forall outside float_is finite b segments segments' self known,
  tests_of segments self -> tests_of segments' known ->
  sizes_nonneg outside b self -> sizes_nonneg outside b known ->
  succeeds_if_succeeding self known = true ->
  holds outside float_is finite b known = true -> holds outside float_is finite b self = true.
Proof. intros. eapply succeeds_if_succeeding_sound; eauto using tests_of_wf. Qed.
Print Assumptions C23_success_follows_from_success_partial.
Theorem C23_failure_follows_from_failure_partial :
  forall outside float_is finite b segments segments' self known,
  tests_of segments self -> tests_of segments' known ->
  sizes_nonneg outside b self -> sizes_nonneg outside b known ->
  fails_if_failing self known = true ->
  holds outside float_is finite b known = false -> holds outside float_is finite b self = false.
Proof. intros. eapply fails_if_failing_sound; eauto using tests_of_wf. Qed.
Print Assumptions C23_failure_follows_from_failure_partial.
Theorem C23_failure_follows_from_success_partial :
  forall outside float_is finite b segments segments' self known,
  tests_of segments self -> tests_of segments' known ->
  sizes_nonneg outside b self -> sizes_nonneg outside b known ->
  fails_if_succeeding self known = true ->
  holds outside float_is finite b known = true -> holds outside float_is finite b self = false.
Proof. intros. eapply fails_if_succeeding_sound; eauto using tests_of_wf. Qed.
Print Assumptions C23_failure_follows_from_success_partial.

(** Comparing the bits of two literals never indexes out of bounds. *)
Theorem C23_comparing_literals_does_not_panic : forall segments segments' v r w q,
  tests_of segments (Match v r) -> tests_of segments' (Match w q) ->
  interfering_bits v r w q <> IndexPanic.
Proof.
  intros segments segments' v r w q H1 H2 E. apply tests_of_wf in H1. apply tests_of_wf in H2.
  pose proof (interfering_spec (fun _ => 0) (fun _ _ _ => false) (fun _ _ => false) [] v r w q H1 H2) as S.
  now rewrite E in S.
Qed.
Print Assumptions C23_comparing_literals_does_not_panic.

(** [<<_:size(a + b), 1, _:bits>>] and [<<_:size(b), _:bits>>]: with [a] = -5 and [b] = 8
    the first three bits are there, yet there are no eight. *)
Definition sum_segments : list segment :=
  [ Segment (PDiscard (str "_")) [OSize (SBlock (SBinaryOperator Add (SVariable (str "a")) (SVariable (str "b")))) false] TInt;
    Segment (PInt 1) [] TInt;
    Segment (PDiscard (str "_")) [OBits] TBitArray ].
Definition single_segments : list segment :=
  [ Segment (PDiscard (str "_")) [OSize (SVariable (str "b")) false] TInt;
    Segment (PDiscard (str "_")) [OBits] TBitArray ].
Definition negative_scope (n : text) : Z := if text_eqb n (str "a") then -5 else 8.
Lemma sum_segments_are_valid : valid_segments sum_segments /\ valid_segments single_segments.
Proof. cbn. unfold valid_segment. cbn. repeat split; try lia; try discriminate; intros; discriminate. Qed.

(** The full claim is false: all tests of the first pattern up to [known] succeed, the
    compiler concludes that [self] succeeds, and it fails. *)
Theorem C23_refuted : exists outside float_is finite b segments segments' self known before after,
  tests_of segments self /\ tests_of segments' known /\
  bit_array_to_tests segments' = before ++ known :: after /\
  forallb (holds outside float_is finite b) before = true /\
  succeeds_if_succeeding self known = true /\
  holds outside float_is finite b known = true /\ holds outside float_is finite b self = false.
Proof.
  exists negative_scope, (fun _ _ _ => false), (fun _ _ => true), [true; true; true; true; true],
    single_segments, sum_segments.
  destruct sum_segments_are_valid as [V1 V2].
  eexists (nth 1 (bit_array_to_tests single_segments) (Size Equal (constant_offset 0))).
  eexists (nth 1 (bit_array_to_tests sum_segments) (Size Equal (constant_offset 0))).
  exists [nth 0 (bit_array_to_tests sum_segments) (Size Equal (constant_offset 0))],
    (skipn 2 (bit_array_to_tests sum_segments)).
  split; [split; [assumption|vm_compute; tauto]|].
  split; [split; [assumption|vm_compute; tauto]|].
  repeat split.
Qed.
Print Assumptions C23_refuted.

(** Literals: [<<1, 2>>] succeeding decides [<<1, _>>], [<<258:16>>] and [<<_:8, 3>>]. *)
Definition literal_test (z offset size : Z) : test :=
  Match (LiteralInt z (int_to_bits z (ConstantBits size) Big false))
        (ReadAction (constant_offset offset) (ConstantBits size) TInt Big false).
Example C23_example :
  tests_of [Segment (PInt 258) [OSize (SInt 16) true] TInt] (literal_test 258 0 16)
  /\ tests_of [Segment (PDiscard (str "_")) [] TInt; Segment (PInt 2) [] TInt] (literal_test 2 8 8)
  /\ succeeds_if_succeeding (literal_test 2 8 8) (literal_test 258 0 16) = true
  /\ fails_if_succeeding (literal_test 3 8 8) (literal_test 258 0 16) = true
  /\ fails_if_failing (literal_test 258 0 16) (literal_test 1 0 8) = true
  /\ fails_if_failing (literal_test 258 0 16) (literal_test 2 8 8) = false
  /\ size_fails_if_succeeding Equal (constant_offset 8) GreaterEqual (constant_offset 16) = true.
Proof.
  split; [|split].
  - split; [|vm_compute; tauto]. cbn. unfold valid_segment. cbn. repeat split; try lia; try discriminate; intros; discriminate.
  - split; [|vm_compute; tauto]. cbn. unfold valid_segment. cbn. repeat split; try lia; try discriminate; intros; discriminate.
  - repeat split.
Qed.
