(** Properties C25 and C47: options of bit array segments, truncated literals. *)
From Coq Require Import String ZArith NArith Bool List Lia.
From Verif Require Import Text SegmentOptions SegmentOptionsSpec SegmentOptionsProofs.
Import ListNotations.
Local Open Scope string_scope.
Local Open Scope list_scope.

(** ** C25 *)
Theorem C25_accepted_iff_meaningful : forall os m must_have_size t,
  (exists ty, type_options os m must_have_size t = Ok ty) <-> meaningful os m must_have_size t.
Proof.
  intros os m must t. pose proof (type_options_spec os m must t) as S. destruct (type_options os m must t) as [ty|e l|].
  - split; [intros _; apply S|eauto].
  - destruct S as (o & _ & _ & B). split; [intros [ty [=]]|]. intros M. destruct (blames_meaningful _ _ _ _ _ _ B M).
  - contradiction.
Qed.
Print Assumptions C25_accepted_iff_meaningful.

Theorem C25_type_is_documented : forall os m must_have_size t ty,
  type_options os m must_have_size t = Ok ty -> forall ty', documented os ty' <-> ty' = ty.
Proof. intros os m must t ty E. pose proof (type_options_spec os m must t) as S. rewrite E in S. apply S. Qed.
Print Assumptions C25_type_is_documented.

(** A rejection points to an option that breaks the rule it names. *)
Theorem C25_error_is_right : forall os m must_have_size t e l,
  type_options os m must_have_size t = Err e l ->
  exists o, In o os /\ l = location o /\ blames os m must_have_size t e o.
Proof. intros os m must t e l E. pose proof (type_options_spec os m must t) as S. rewrite E in S. exact S. Qed.
Print Assumptions C25_error_is_right.

Theorem C25_always_answers : forall os m must_have_size t, type_options os m must_have_size t <> Panic.
Proof. intros os m must t E. pose proof (type_options_spec os m must t) as S. now rewrite E in S. Qed.
Print Assumptions C25_always_answers.

Definition at_ (k : option_kind) (n : N) := SegmentOption k (n, n + 1)%N.
Example C25_examples :
  type_options [at_ (Size (Some 16%Z)) 0; at_ (Unit 2) 1; at_ Little 2; at_ Signed 3] Pattern true JavaScript = Ok IntType /\
  type_options [at_ Bits 0; at_ (Size None) 1] Pattern true Erlang = Ok BitArrayType /\
  type_options [at_ Bits 0] Pattern true Erlang = Err SegmentMustHaveSize (0, 1)%N /\
  type_options [at_ Utf16Codepoint 0; at_ Native 4] Expression false Erlang = Ok UtfCodepointType /\
  type_options [at_ Utf16Codepoint 0; at_ Native 4] Expression false JavaScript =
    Err (OptionNotSupportedForTarget JavaScript NativeEndianness) (4, 5)%N /\
  type_options [at_ Float 0; at_ (Size (Some 24%Z)) 1] Pattern false Erlang = Err FloatWithSize (1, 2)%N /\
  type_options [at_ Utf8 0; at_ Float 1] Pattern false Erlang = Err (ConflictingTypeOptions (str "utf8")) (1, 2)%N /\
  type_options [at_ (Unit 8) 0] Expression false Erlang = Err UnitMustHaveSize (0, 1)%N /\
  meaningful [at_ (Size (Some 16%Z)) 0; at_ (Unit 2) 1; at_ Little 2; at_ Signed 3] Pattern true JavaScript.
Proof. do 8 (split; [reflexivity|]). apply C25_accepted_iff_meaningful. eexists. reflexivity. Qed.

(** The sizes allowed for floats do not take the unit into account: 128 bits are accepted, 64
    bits are rejected.  So not all accepted options are ones the targets support. *)
Theorem C25_float_width_refuted : exists os os',
  type_options os Expression false Erlang = Ok FloatType /\ width false os 128 /\
  (exists e l, type_options os' Expression false Erlang = Err e l) /\ has os' Float /\ width false os' 64.
Proof.
  exists [at_ Float 0; at_ (Size (Some 64%Z)) 1; at_ (Unit 2) 2], [at_ Float 0; at_ (Size (Some 8%Z)) 1; at_ (Unit 8) 2].
  split; [reflexivity|]. split.
  - apply (width_unit false _ 64 2); eexists; cbn; eauto.
  - split; [do 2 eexists; reflexivity|]. split; [eexists; cbn; eauto|]. apply (width_unit false _ 8 8); eexists; cbn; eauto.
Qed.
Print Assumptions C25_float_width_refuted.

(** ** C47: a literal is reported as truncated iff it cannot be read back *)
Local Open Scope Z_scope.
Theorem C47_truncation_is_reported : forall is_int os bits value v into b,
  (forall c p o, ~ repeats os c p o) -> width is_int os bits -> 0 < bits < 2 ^ 63 ->
  (check_for_truncated_value is_int os value = Some (v, into, b) <->
   value = Some v /\ read_unsigned bits v <> v /\ read_signed bits v <> v /\ into = read_unsigned bits v /\ b = bits).
Proof.
  intros is_int os bits value v into b U W B. unfold check_for_truncated_value. rewrite (bits_size_spec is_int os U bits W).
  replace (to_i64 bits) with (Some bits).
  2:{ unfold to_i64. replace ((- (2 ^ 63) <=? bits) && (bits <? 2 ^ 63)) with true; [reflexivity|]. symmetry. rewrite andb_true_iff, Z.leb_le, Z.ltb_lt. lia. }
  destruct value as [z|]; [|split; [discriminate|intros [[=] _]]].
  replace (bits <=? 0) with false by lia. destruct (Z.eqb_spec z 0) as [->|NZ].
  - split; [discriminate|]. intros ([= <-] & N & _). unfold read_unsigned in N. rewrite Z.mod_0_l in N by (apply Z.pow_nonzero; lia). congruence.
  - pose proof (truncated_spec z bits ltac:(lia) NZ) as T. cbv zeta.
    destruct (if z <? 0 then _ else _) eqn:S.
    + split; [discriminate|]. intros ([= <-] & N1 & N2 & _). assert (true = false) by (apply T; auto). discriminate.
    + rewrite (truncate_spec z bits) by lia. split.
      * intros [= <- <- <-]. split; [reflexivity|]. split; [now apply T|]. split; [now apply T|]. auto.
      * intros ([= <-] & _ & _ & -> & ->). reflexivity.
Qed.
Print Assumptions C47_truncation_is_reported.

(** Without a known width nothing is reported. *)
Theorem C47_unknown_width : forall is_int os value, (forall c p o, ~ repeats os c p o) -> has os (Size None) ->
  check_for_truncated_value is_int os value = None.
Proof. intros is_int os value U H. unfold check_for_truncated_value. now rewrite (bits_size_unknown is_int os U H). Qed.
Print Assumptions C47_unknown_width.

Example C47_examples :
  width true [] 8 /\
  check_for_truncated_value true [] (Some 256) = Some (256, 0, 8) /\
  check_for_truncated_value true [] (Some 255) = None /\
  check_for_truncated_value true [] (Some (-128)) = None /\
  check_for_truncated_value true [] (Some (-129)) = Some (-129, 127, 8) /\
  width true [at_ (Size (Some 1)) 0; at_ (Unit 4) 1] 4 /\
  check_for_truncated_value true [at_ (Size (Some 1)) 0; at_ (Unit 4) 1] (Some 27) = Some (27, 11, 4).
Proof.
  split; [apply (width_default true); intros (o & [] & _)|]. do 4 (split; [reflexivity|]).
  split; [apply (width_unit true _ 1 4); eexists; cbn; eauto|reflexivity].
Qed.
