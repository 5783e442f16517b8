(** When the options of a segment make sense, and which type they give.  Only the types of
    options and errors come from the model. *)
From Coq Require Import ZArith NArith Bool List.
From Verif Require Import Text SegmentOptions.
Import ListNotations.

(** Each option says one thing about the segment. *)
Inductive category := TypeCategory | SignednessCategory | EndiannessCategory | UnitCategory | SizeCategory.
Definition category_of (k : option_kind) : category :=
  match k with
  | Bytes | Int | Float | Bits | Utf8 | Utf16 | Utf32
  | Utf8Codepoint | Utf16Codepoint | Utf32Codepoint => TypeCategory
  | Signed | Unsigned => SignednessCategory
  | Big | Little | Native => EndiannessCategory
  | Unit _ => UnitCategory
  | Size _ => SizeCategory
  end.

Definition has (os : list segment_option) (k : option_kind) : Prop := exists o, In o os /\ what o = k.
Definition has_category (os : list segment_option) (c : category) : Prop :=
  exists o, In o os /\ category_of (what o) = c.
(** [j] repeats what [i] already said. *)
Definition repeats (os : list segment_option) (c : category) (first second : segment_option) : Prop :=
  exists i j, i < j /\ nth_error os i = Some first /\ nth_error os j = Some second /\
    category_of (what first) = c /\ category_of (what second) = c.
Definition unicode (k : option_kind) : Prop :=
  k = Utf8 \/ k = Utf16 \/ k = Utf32 \/ k = Utf8Codepoint \/ k = Utf16Codepoint \/ k = Utf32Codepoint.
Definition codepoint (k : option_kind) : Prop :=
  k = Utf8Codepoint \/ k = Utf16Codepoint \/ k = Utf32Codepoint.
(** Types whose bytes have no order. *)
Definition orderless (k : option_kind) : Prop := k = Bytes \/ k = Bits \/ k = Utf8 \/ k = Utf8Codepoint.

Record meaningful (os : list segment_option) (m : mode) (must_have_size : bool) (t : target) : Prop := {
  no_repetition : forall c first second, ~ repeats os c first second;
  no_codepoint_in_javascript_pattern : forall k, m = Pattern -> t = JavaScript -> codepoint k -> ~ has os k;
  no_native_in_javascript : t = JavaScript -> ~ has os Native;
  no_signedness_in_value : m = Expression -> ~ has_category os SignednessCategory;
  no_bytes_in_value : m = Expression -> ~ has os Bytes;
  sized_unless_last : forall k, must_have_size = true -> k = Bytes \/ k = Bits -> has os k ->
    has_category os SizeCategory;
  order_of_bytes : forall k, has_category os EndiannessCategory -> orderless k -> ~ has os k;
  signed_integers : forall k, has_category os SignednessCategory -> category_of k = TypeCategory ->
    has os k -> k = Int;
  unicode_without_unit : forall k, unicode k -> has os k -> ~ has_category os UnitCategory;
  unicode_without_size : forall k, unicode k -> has os k -> ~ has_category os SizeCategory;
  unit_with_size : has_category os UnitCategory -> has_category os SizeCategory;
  float_size : forall z, has os Float -> has os (Size (Some z)) -> In z [16; 32; 64]%Z;
  positive_size : forall z, m = Pattern -> has os (Size (Some z)) -> (0 < z)%Z }.

(** The documented type: an int unless another type is given. *)
Inductive documented (os : list segment_option) : segment_type -> Prop :=
  | documented_default : ~ has_category os TypeCategory -> documented os IntType
  | documented_int : has os Int -> documented os IntType
  | documented_float : has os Float -> documented os FloatType
  | documented_string k : has os k -> k = Utf8 \/ k = Utf16 \/ k = Utf32 -> documented os StringType
  | documented_bit_array k : has os k -> k = Bytes \/ k = Bits -> documented os BitArrayType
  | documented_codepoint k : has os k -> codepoint k -> documented os UtfCodepointType.

(** [blames os m must t e o]: the error is about the option [o], and it is right. *)
Inductive blames (os : list segment_option) (m : mode) (must_have_size : bool) (t : target) :
    error_type -> segment_option -> Prop :=
  | blames_type p o : repeats os TypeCategory p o -> blames os m must_have_size t (ConflictingTypeOptions (label p)) o
  | blames_signedness p o : repeats os SignednessCategory p o ->
      blames os m must_have_size t (ConflictingSignednessOptions (label p)) o
  | blames_endianness p o : repeats os EndiannessCategory p o ->
      blames os m must_have_size t (ConflictingEndiannessOptions (label p)) o
  | blames_size p o : repeats os SizeCategory p o -> blames os m must_have_size t ConflictingSizeOptions o
  | blames_unit p o : repeats os UnitCategory p o -> blames os m must_have_size t ConflictingUnitOptions o
  | blames_codepoint o : m = Pattern -> t = JavaScript -> In o os -> codepoint (what o) ->
      blames os m must_have_size t (OptionNotSupportedForTarget t UtfCodepointPattern) o
  | blames_native o : t = JavaScript -> In o os -> what o = Native ->
      blames os m must_have_size t (OptionNotSupportedForTarget t NativeEndianness) o
  | blames_value o : m = Expression -> In o os -> category_of (what o) = SignednessCategory \/ what o = Bytes ->
      blames os m must_have_size t OptionNotAllowedInValue o
  | blames_no_size o : must_have_size = true -> In o os -> what o = Bytes \/ what o = Bits ->
      ~ has_category os SizeCategory -> blames os m must_have_size t SegmentMustHaveSize o
  | blames_order k o : has os k -> orderless k -> In o os -> category_of (what o) = EndiannessCategory ->
      blames os m must_have_size t InvalidEndianness o
  | blames_sign p o : In p os -> category_of (what p) = TypeCategory -> what p <> Int -> In o os ->
      category_of (what o) = SignednessCategory ->
      blames os m must_have_size t (SignednessUsedOnNonInt (label p)) o
  | blames_unicode_unit p o : In p os -> unicode (what p) -> In o os -> category_of (what o) = UnitCategory ->
      blames os m must_have_size t (TypeDoesNotAllowUnit (label p)) o
  | blames_unicode_size p o : In p os -> unicode (what p) -> In o os -> category_of (what o) = SizeCategory ->
      blames os m must_have_size t (TypeDoesNotAllowSize (label p)) o
  | blames_unit_size o : In o os -> category_of (what o) = UnitCategory -> ~ has_category os SizeCategory ->
      blames os m must_have_size t UnitMustHaveSize o
  | blames_float o z : has os Float -> In o os -> what o = Size (Some z) -> ~ In z [16; 32; 64]%Z ->
      blames os m must_have_size t FloatWithSize o
  | blames_not_positive o z : m = Pattern -> In o os -> what o = Size (Some z) -> (z <= 0)%Z ->
      blames os m must_have_size t ConstantSizeNotPositive o.

(** ** Truncated literals *)

Local Open Scope Z_scope.
(** The number written in [bits] bits, read back without and with sign. *)
Definition read_unsigned (bits z : Z) : Z := z mod 2 ^ bits.
Definition read_signed (bits z : Z) : Z :=
  let r := z mod 2 ^ bits in if Z.ltb r (2 ^ (bits - 1)) then r else r - 2 ^ bits.
(** The width of a segment: what the options say times the unit. *)
Inductive width (is_int : bool) (os : list segment_option) : Z -> Prop :=
  | width_default : ~ has_category os SizeCategory -> ~ has_category os UnitCategory -> ~ has os Bytes ->
      width is_int os (if is_int then 8 else 64)
  | width_size z : has os (Size (Some z)) -> ~ has_category os UnitCategory -> ~ has os Bytes -> width is_int os z
  | width_bytes z : has os (Size (Some z)) -> ~ has_category os UnitCategory -> has os Bytes ->
      width is_int os (8 * z)
  | width_unit z u : has os (Size (Some z)) -> has os (Unit u) -> width is_int os (z * Z.of_N u).
