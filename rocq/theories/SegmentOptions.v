(** Options of bit array segments: compiler-core/src/bit_array.rs, and the warning for
    truncated literals, compiler-core/src/ast.rs 3903-3965. *)
From Coq Require Import String ZArith NArith Bool List.
From Verif Require Import Text.
Import ListNotations.
Local Open Scope string_scope.
Local Open Scope list_scope.

Inductive target := Erlang | JavaScript.

(** [BitArrayOption], ast.rs 4020-4091.  Of the value of a size only [as_int_literal] is kept
    (bit_array.rs 345-372, ast/typed.rs 1877-1885, ast/constant.rs 667-675): the number if it is
    an integer literal.  Spans are kept as they are, a start and an end. *)
Definition span := (N * N)%type.
Inductive option_kind :=
  | Bytes | Int | Float | Bits | Utf8 | Utf16 | Utf32
  | Utf8Codepoint | Utf16Codepoint | Utf32Codepoint
  | Signed | Unsigned | Big | Little | Native
  | Size (literal : option Z) | Unit (value : N).
Record segment_option := SegmentOption { what : option_kind; location : span }.

(** [label], ast.rs 4138-4158. *)
Definition label (o : segment_option) : text :=
  match what o with
  | Bytes => str "bytes" | Int => str "int" | Float => str "float" | Bits => str "bits"
  | Utf8 => str "utf8" | Utf16 => str "utf16" | Utf32 => str "utf32"
  | Utf8Codepoint => str "utf8_codepoint" | Utf16Codepoint => str "utf16_codepoint"
  | Utf32Codepoint => str "utf32_codepoint"
  | Signed => str "signed" | Unsigned => str "unsigned"
  | Big => str "big" | Little => str "little" | Native => str "native"
  | Size _ => str "size" | Unit _ => str "unit"
  end.

Inductive segment_type := IntType | FloatType | StringType | BitArrayType | UtfCodepointType.

(** [ErrorType], 402-437. *)
Inductive unsupported := UtfCodepointPattern | NativeEndianness.
Inductive error_type :=
  | ConflictingEndiannessOptions (existing : text)
  | ConflictingSignednessOptions (existing : text)
  | ConflictingSizeOptions
  | ConflictingTypeOptions (existing : text)
  | ConflictingUnitOptions
  | FloatWithSize
  | InvalidEndianness
  | OptionNotAllowedInValue
  | SegmentMustHaveSize
  | SignednessUsedOnNonInt (type_ : text)
  | TypeDoesNotAllowSize (type_ : text)
  | TypeDoesNotAllowUnit (type_ : text)
  | UnitMustHaveSize
  | ConstantSizeNotPositive
  | OptionNotSupportedForTarget (t : target) (o : unsupported).
Inductive result := Ok (t : segment_type) | Err (e : error_type) (l : span) | Panic.

Inductive mode := Expression | Pattern.

(** [SegmentOptionCategories], 42-82. *)
Record categories := Categories {
  type_ : option segment_option;
  signed : option segment_option;
  endian : option segment_option;
  unit : option segment_option;
  size : option segment_option }.
Definition segment_type_of (c : categories) : result :=
  match option_map what (type_ c) with
  | None | Some Int => Ok IntType
  | Some Float => Ok FloatType
  | Some (Utf8 | Utf16 | Utf32) => Ok StringType
  | Some (Bytes | Bits) => Ok BitArrayType
  | Some (Utf8Codepoint | Utf16Codepoint | Utf32Codepoint) => Ok UtfCodepointType
  | Some (Signed | Unsigned | Big | Little | Native | Size _ | Unit _) => Panic
  end.

(** The loop of [type_options], 105-187. *)
Fixpoint categorise (m : mode) (t : target) (os : list segment_option) (c : categories) :
    categories + error_type * span :=
  match os with
  | [] => inl c
  | o :: os =>
      let type_option :=
        match type_ c with
        | Some previous => inr (ConflictingTypeOptions (label previous), location o)
        | None => categorise m t os (Categories (Some o) (signed c) (endian c) (unit c) (size c))
        end in
      let endian_option :=
        match endian c with
        | Some previous => inr (ConflictingEndiannessOptions (label previous), location o)
        | None => categorise m t os (Categories (type_ c) (signed c) (Some o) (unit c) (size c))
        end in
      match what o with
      | Utf8Codepoint | Utf16Codepoint | Utf32Codepoint =>
          match m, t with
          | Pattern, JavaScript =>
              inr (OptionNotSupportedForTarget t UtfCodepointPattern, location o)
          | _, _ => type_option
          end
      | Bytes | Int | Float | Bits | Utf8 | Utf16 | Utf32 => type_option
      | Signed | Unsigned =>
          match signed c with
          | Some previous => inr (ConflictingSignednessOptions (label previous), location o)
          | None => categorise m t os (Categories (type_ c) (Some o) (endian c) (unit c) (size c))
          end
      | Native =>
          match t with
          | JavaScript => inr (OptionNotSupportedForTarget t NativeEndianness, location o)
          | Erlang => endian_option
          end
      | Big | Little => endian_option
      | Size _ =>
          match size c with
          | Some _ => inr (ConflictingSizeOptions, location o)
          | None => categorise m t os (Categories (type_ c) (signed c) (endian c) (unit c) (Some o))
          end
      | Unit _ =>
          match unit c with
          | Some _ => inr (ConflictingUnitOptions, location o)
          | None => categorise m t os (Categories (type_ c) (signed c) (endian c) (Some o) (size c))
          end
      end
  end.

(** [is_unicode], 374-386. *)
Definition is_unicode (o : segment_option) : bool :=
  match what o with
  | Utf8 | Utf16 | Utf32 | Utf8Codepoint | Utf16Codepoint | Utf32Codepoint => true
  | _ => false
  end.

(** The checks after the loop, 189-338, in order; each is the error it returns if any. *)
Definition check := option (error_type * span).
Definition value_check (m : mode) (c : categories) : check :=
  match m, signed c, type_ c with
  | Expression, Some o, _ => Some (OptionNotAllowedInValue, location o)
  | Expression, None, Some (SegmentOption Bytes l) => Some (OptionNotAllowedInValue, l)
  | _, _, _ => None
  end.
Definition size_check (must_have_size : bool) (c : categories) : check :=
  match must_have_size, type_ c, size c with
  | true, Some (SegmentOption (Bytes | Bits) l), None => Some (SegmentMustHaveSize, l)
  | _, _, _ => None
  end.
Definition endian_check (c : categories) : check :=
  match option_map what (type_ c), endian c with
  | (None | Some (Int | Utf16 | Utf32 | Utf16Codepoint | Utf32Codepoint | Float)), _ => None
  | _, Some e => Some (InvalidEndianness, location e)
  | _, None => None
  end.
Definition signed_check (c : categories) : check :=
  match type_ c, signed c with
  | (None | Some (SegmentOption Int _)), _ => None
  | Some o, Some s => Some (SignednessUsedOnNonInt (label o), location s)
  | Some _, None => None
  end.
Definition unicode_check (c : categories) : check :=
  match type_ c with
  | None => None
  | Some o =>
      if is_unicode o then
        match unit c, size c with
        | Some u, _ => Some (TypeDoesNotAllowUnit (label o), location u)
        | None, Some s => Some (TypeDoesNotAllowSize (label o), location s)
        | None, None => None
        end
      else None
  end.
Definition unit_check (c : categories) : check :=
  match unit c, size c with
  | Some u, None => Some (UnitMustHaveSize, location u)
  | _, _ => None
  end.
Definition float_check (c : categories) : check :=
  match option_map what (type_ c), size c with
  | Some Float, Some (SegmentOption (Size (Some z)) l) =>
      if (z =? 16)%Z || (z =? 32)%Z || (z =? 64)%Z then None else Some (FloatWithSize, l)
  | _, _ => None
  end.
Definition constant_size_check (m : mode) (c : categories) : check :=
  match m, size c with
  | Pattern, Some (SegmentOption (Size (Some z)) l) =>
      if (z <=? 0)%Z then Some (ConstantSizeNotPositive, l) else None
  | _, _ => None
  end.
Fixpoint first_error (cs : list check) (k : result) : result :=
  match cs with
  | [] => k
  | Some (e, l) :: _ => Err e l
  | None :: cs => first_error cs k
  end.

(** [type_options], 94-341. *)
Definition type_options (os : list segment_option) (m : mode) (must_have_size : bool) (t : target) : result :=
  match categorise m t os (Categories None None None None None) with
  | inr (e, l) => Err e l
  | inl c =>
      first_error
        [value_check m c; size_check must_have_size c; endian_check c; signed_check c;
         unicode_check c; unit_check c; float_check c; constant_size_check m c]
        (segment_type_of c)
  end.

(** [type_options_for_value], [type_options_for_pattern], 17-40. *)
Definition type_options_for_value (os : list segment_option) (t : target) : result :=
  type_options os Expression false t.
Definition type_options_for_pattern (os : list segment_option) (must_have_size : bool) (t : target) : result :=
  type_options os Pattern must_have_size t.

(** ** Truncated literals *)

(** [BitArraySegment::size], ast.rs 3816-3836, and [unit], 3838-3866. *)
Fixpoint find_size (os : list segment_option) : option (option Z) :=
  match os with
  | [] => None
  | SegmentOption (Size v) _ :: _ => Some v
  | _ :: os => find_size os
  end.
Fixpoint find_unit (has_bytes : bool) (os : list segment_option) : N :=
  match os with
  | [] => if has_bytes then 8%N else 1%N
  | SegmentOption (Unit v) _ :: _ => v
  | SegmentOption Bytes _ :: os => find_unit true os
  | _ :: os => find_unit has_bytes os
  end.

(** [bits_size], 3936-3949. *)
Definition bits_size (is_int : bool) (os : list segment_option) : option Z :=
  let unit := Z.of_N (find_unit false os) in
  match find_size os with
  | None => Some ((if is_int then 8 else 64) * unit)%Z
  | Some (Some z) => Some (z * unit)%Z
  | Some None => None
  end.

(** [BigInt::to_i64]. *)
Definition to_i64 (z : Z) : option Z :=
  if (-(2 ^ 63) <=? z)%Z && (z <? 2 ^ 63)%Z then Some z else None.

(** [truncate], 3963-3965. *)
Definition truncate (literal bits : Z) : Z := Z.land literal (Z.shiftl 1 bits - 1).

(** [check_for_truncated_value], 3908-3934: the value, what it becomes, the bits. *)
Definition in_range (z low high : Z) : bool := (low <=? z)%Z && (z <? high)%Z.
Definition check_for_truncated_value (is_int : bool) (os : list segment_option) (value : option Z) :
    option (Z * Z * Z) :=
  match bits_size is_int os with
  | None => None
  | Some size =>
      match to_i64 size, value with
      | Some bits, Some z =>
          if (bits <=? 0)%Z then None
          else if (z =? 0)%Z then None
          else
            let safe :=
              if (z <? 0)%Z then in_range z (- Z.shiftl 1 (bits - 1)) (Z.shiftl 1 (bits - 1) - 1)
              else in_range z 0 (Z.shiftl 1 bits) in
            if safe then None else Some (z, truncate z bits, bits)
      | _, _ => None
      end
  end.
