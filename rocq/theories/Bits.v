(** Bit array patterns: segment options, sizes and offsets, the tests a pattern is turned
    into, what one test's outcome tells about another's, and the bits of literal
    integers.  Model of compiler-core/src/exhaustiveness.rs 955-2035 and 3705-4150, and of
    the segment accessors of compiler-core/src/ast.rs 3798-3880.

    Not modelled: source locations; [usize] overflow when an offset and a size close to
    2^64 bits are added (interfering_bits, 1283). *)
From Coq Require Import ZArith NArith Bool List.
From Verif Require Import Text Strings.
Import ListNotations.
Local Open Scope Z_scope.

(** ** Segments *)

(** [BitArrayOption], compiler-core/src/ast.rs 4020-4091. *)
Inductive bit_array_option (V : Type) : Type :=
  | OBytes | OInt | OFloat | OBits | OUtf8 | OUtf16 | OUtf32
  | OUtf8Codepoint | OUtf16Codepoint | OUtf32Codepoint
  | OSigned | OUnsigned | OBig | OLittle | ONative
  | OSize (value : V) (short_form : bool)
  | OUnit (value : N).
Arguments OBytes {V}. Arguments OInt {V}. Arguments OFloat {V}. Arguments OBits {V}.
Arguments OUtf8 {V}. Arguments OUtf16 {V}. Arguments OUtf32 {V}.
Arguments OUtf8Codepoint {V}. Arguments OUtf16Codepoint {V}. Arguments OUtf32Codepoint {V}.
Arguments OSigned {V}. Arguments OUnsigned {V}. Arguments OBig {V}. Arguments OLittle {V}.
Arguments ONative {V}. Arguments OSize {V}. Arguments OUnit {V}.

(** [IntOperator], compiler-core/src/ast.rs 2925-2931. *)
Inductive int_operator := Add | Subtract | Multiply | Divide | Remainder.

(** [BitArraySize], compiler-core/src/ast.rs 2897-2922. *)
Inductive size_expr :=
  | SInt (int_value : Z)
  | SVariable (name : text)
  | SBinaryOperator (operator : int_operator) (left right : size_expr)
  | SBlock (inner : size_expr).

(** The patterns allowed as the value of a segment: the ones [segment_matched_value],
    exhaustiveness.rs 3820-3884, does not panic on. *)
Inductive seg_pattern :=
  | PInt (int_value : Z)
  | PFloat (value : text)
  | PString (value : text)
  | PVariable (name : text)
  | PDiscard (name : text)
  | PAssign (name : text) (pattern : seg_pattern).

(** [ReadType], exhaustiveness.rs 1682-1688: what [bit_array_to_tests] (3769-3776) makes of
    the type of a segment. *)
Inductive read_type := TFloat | TInt | TString | TBitArray | TUtfCodepoint.

(** [TypedPatternBitArraySegment], compiler-core/src/ast.rs 3715-3720. *)
Record segment := Segment {
  value : seg_pattern;
  options : list (bit_array_option size_expr);
  type_ : read_type }.

(** Accessors, compiler-core/src/ast.rs 3784-3880. *)
Definition has_bits_option (s : segment) : bool :=
  existsb (fun o => match o with OBits => true | _ => false end) (options s).
Definition has_bytes_option (s : segment) : bool :=
  existsb (fun o => match o with OBytes => true | _ => false end) (options s).
Definition has_utf16_option (s : segment) : bool :=
  existsb (fun o => match o with OUtf16 => true | _ => false end) (options s).
Definition has_utf32_option (s : segment) : bool :=
  existsb (fun o => match o with OUtf32 => true | _ => false end) (options s).
Definition seg_endianness (s : segment) : endianness :=
  if existsb (fun o => match o with OLittle => true | _ => false end) (options s) then Little else Big.
Definition seg_signed (s : segment) : bool :=
  existsb (fun o => match o with OSigned => true | _ => false end) (options s).
Fixpoint find_size {V} (os : list (bit_array_option V)) : option V :=
  match os with
  | [] => None
  | OSize v _ :: _ => Some v
  | _ :: os => find_size os
  end.
Definition seg_size (s : segment) : option size_expr := find_size (options s).
Fixpoint unit_loop {V} (has_bytes_option : bool) (os : list (bit_array_option V)) : N :=
  match os with
  | [] => if has_bytes_option then 8%N else 1%N
  | OUnit v :: _ => v
  | OBytes :: os => unit_loop true os
  | _ :: os => unit_loop has_bytes_option os
  end.
Definition seg_unit (s : segment) : N := unit_loop false (options s).

(** ** Sizes and offsets *)

(** [VariableUsage] 2027-2033, [ReadAction] 1660-1677, [Offset] 1745-1749,
    [OffsetCalculation] 1752-1756, [ReadSize] 1911-1960.  The hash map of an offset is the
    list of its entries in the order of their keys' codes below, so that two maps are
    equal exactly when the lists are. *)
Inductive variable_usage :=
  | PatternSegment (name : text) (read : read_action)
  | OutsideVariable (name : text)
with read_action :=
  | ReadAction (from : offset) (size : read_size) (ty : read_type) (e : endianness) (signed : bool)
with offset :=
  | Offset (constant : Z) (variables : bag) (calculations : calcs)
with bag :=
  | BNil
  | BCons (key : variable_usage) (count : N) (rest : bag)
with calcs :=
  | CNil
  | CCons (left right : offset) (operator : int_operator) (rest : calcs)
with read_size :=
  | ConstantBits (z : Z)
  | VariableBits (variable : variable_usage) (unit : N)
  | BinaryOperator (left right : read_size) (operator : int_operator)
  | RemainingBits
  | RemainingBytes.

Definition ra_from (r : read_action) : offset := let 'ReadAction f _ _ _ _ := r in f.
Definition ra_size (r : read_action) : read_size := let 'ReadAction _ s _ _ _ := r in s.
Definition ra_endianness (r : read_action) : endianness := let 'ReadAction _ _ _ e _ := r in e.
Definition ra_signed (r : read_action) : bool := let 'ReadAction _ _ _ _ s := r in s.
Definition constant (o : offset) : Z := let 'Offset c _ _ := o in c.
Definition variables (o : offset) : bag := let 'Offset _ vs _ := o in vs.
Definition calculations (o : offset) : calcs := let 'Offset _ _ cs := o in cs.

(** The derived equality of these types is equality of the following codes. *)
Definition code_z (z : Z) : list N := [if z <? 0 then 1%N else 0%N; Z.abs_N z].
Definition code_text (t : text) : list N := N.of_nat (length t) :: t.
Definition code_type (t : read_type) : N :=
  match t with TFloat => 0 | TInt => 1 | TString => 2 | TBitArray => 3 | TUtfCodepoint => 4 end%N.
Definition code_operator (o : int_operator) : N :=
  match o with Add => 0 | Subtract => 1 | Multiply => 2 | Divide => 3 | Remainder => 4 end%N.
Definition code_endianness (e : endianness) : N := match e with Big => 0 | Little => 1 end%N.
Definition code_bool (b : bool) : N := if b then 1%N else 0%N.
Fixpoint code_var (v : variable_usage) : list N :=
  match v with
  | PatternSegment n r => 0%N :: code_text n ++ code_read r
  | OutsideVariable n => 1%N :: code_text n
  end
with code_read (r : read_action) : list N :=
  let 'ReadAction f s t e b := r in
  code_offset f ++ code_size s ++ [code_type t; code_endianness e; code_bool b]
with code_offset (o : offset) : list N :=
  let 'Offset c vs cs := o in code_z c ++ code_bag vs ++ code_calcs cs
with code_bag (b : bag) : list N :=
  match b with
  | BNil => [0%N]
  | BCons k n b => 1%N :: code_var k ++ n :: code_bag b
  end
with code_calcs (cs : calcs) : list N :=
  match cs with
  | CNil => [0%N]
  | CCons l r o cs => 1%N :: code_offset l ++ code_offset r ++ code_operator o :: code_calcs cs
  end
with code_size (s : read_size) : list N :=
  match s with
  | ConstantBits z => 0%N :: code_z z
  | VariableBits v u => 1%N :: code_var v ++ [u]
  | BinaryOperator l r o => 2%N :: code_size l ++ code_size r ++ [code_operator o]
  | RemainingBits => [3%N]
  | RemainingBytes => [4%N]
  end.
Definition var_eqb (a b : variable_usage) : bool := text_eqb (code_var a) (code_var b).
Definition offset_eqb (a b : offset) : bool := text_eqb (code_offset a) (code_offset b).
Definition size_eqb (a b : read_size) : bool := text_eqb (code_size a) (code_size b).
Definition read_eqb (a b : read_action) : bool := text_eqb (code_read a) (code_read b).

(** [im::HashMap::get], [alter]. *)
Fixpoint bag_get (k : variable_usage) (b : bag) : option N :=
  match b with
  | BNil => None
  | BCons k' n b => if var_eqb k k' then Some n else bag_get k b
  end.
Fixpoint bag_insert (k : variable_usage) (n : N) (b : bag) : bag :=
  match b with
  | BNil => BCons k n BNil
  | BCons k' n' b' =>
      match text_cmp (code_var k) (code_var k') with
      | Lt => BCons k n b
      | _ => BCons k' n' (bag_insert k n b')
      end
  end.
Fixpoint bag_increase (k : variable_usage) (n : N) (b : bag) : bag :=
  match b with
  | BNil => BNil
  | BCons k' n' b => if var_eqb k k' then BCons k' (n' + n) b else BCons k' n' (bag_increase k n b)
  end.
Definition bag_alter (k : variable_usage) (unit : N) (b : bag) : bag :=
  match bag_get k b with
  | Some _ => bag_increase k unit b
  | None => bag_insert k unit b
  end.
Definition bag_is_empty (b : bag) : bool := match b with BNil => true | _ => false end.
Definition calcs_is_empty (cs : calcs) : bool := match cs with CNil => true | _ => false end.
Fixpoint push_back (l r : offset) (o : int_operator) (cs : calcs) : calcs :=
  match cs with
  | CNil => CCons l r o CNil
  | CCons l' r' o' cs => CCons l' r' o' (push_back l r o cs)
  end.

(** [Offset::constant] 1759-1765, [Offset::add_size] 1771-1809, [Offset::from_size]
    1767-1769. *)
Definition constant_offset (z : Z) : offset := Offset z BNil CNil.
Fixpoint add_size (self : offset) (size : read_size) : offset :=
  let 'Offset c vs cs := self in
  match size with
  | ConstantBits z => Offset (c + z) vs cs
  | VariableBits v unit => Offset c (bag_alter v unit vs) cs
  | RemainingBits | RemainingBytes => self
  | BinaryOperator l r Add => add_size (add_size self l) r
  | BinaryOperator l r o =>
      Offset c vs (push_back (add_size (constant_offset 0) l) (add_size (constant_offset 0) r) o cs)
  end.

(** [superset], 4085-4095. *)
Fixpoint superset (one other : bag) : bool :=
  match other with
  | BNil => true
  | BCons k n other =>
      match bag_get k one with
      | Some occurrences => (n <=? occurrences)%N && superset one other
      | None => false
      end
  end.

(** [Confidence] is a boolean, true for [Certain].  [Offset::greater] 1823-1835,
    [greater_equal] 1840-1852, [different] 1857-1859. *)
Definition greater (self other : offset) : bool :=
  (constant other <? constant self)
  && calcs_is_empty (calculations self) && calcs_is_empty (calculations other)
  && superset (variables self) (variables other).
Definition greater_equal (self other : offset) : bool :=
  offset_eqb self other
  || ((constant other <=? constant self)
      && calcs_is_empty (calculations self) && calcs_is_empty (calculations other)
      && superset (variables self) (variables other)).
Definition different (self other : offset) : bool := greater self other || greater other self.

(** [Offset::constant_bits] 1867-1873, [ReadSize::constant_bits] 1964-1972. *)
Definition offset_constant_bits (o : offset) : option Z :=
  if bag_is_empty (variables o) && calcs_is_empty (calculations o) then Some (constant o) else None.
Definition size_constant_bits (s : read_size) : option Z :=
  match s with ConstantBits z => Some z | _ => None end.

(** [ReadSize::can_be_negative], 2005-2023. *)
Fixpoint can_be_negative (s : read_size) : bool :=
  match s with
  | ConstantBits z => z <? 0
  | VariableBits (PatternSegment _ r) _ => ra_signed r
  | VariableBits (OutsideVariable _) _ => true
  | BinaryOperator l r o =>
      match o with Subtract => true | _ => can_be_negative l || can_be_negative r end
  | RemainingBits | RemainingBytes => false
  end.

(** ** The bits of a literal integer *)
Definition bits := list bool.

(** Bits of a byte, most significant first, and of bytes ([BitVec::from_vec] and
    [view_bits] with [Msb0]). *)
Definition byte_bits (n : N) : bits := map (N.testbit n) [7; 6; 5; 4; 3; 2; 1; 0]%N.
Definition bytes_bits (bs : list N) : bits := flat_map byte_bits bs.

(** [BigInt::bits] and [BigInt::trailing_zeros] of the num-bigint crate. *)
Definition bigint_bits (z : Z) : Z := Z.of_N (N.size (Z.abs_N z)).
Fixpoint pos_trailing_zeros (p : positive) : Z :=
  match p with xO p => 1 + pos_trailing_zeros p | _ => 0 end.
Definition trailing_zeros (z : Z) : option Z :=
  match z with Z0 => None | Zpos p | Zneg p => Some (pos_trailing_zeros p) end.

(** [to_bytes_le], [to_bytes_be], [to_signed_bytes_le] and [to_signed_bytes_be] of the
    num-bigint crate: the bytes of the magnitude, at least one; for the signed ones a byte
    more if the highest bit is taken, unless the number is the least of its length. *)
Fixpoint le_bytes (k : nat) (z : Z) : list N :=
  match k with O => [] | S k => Z.to_N (z mod 256) :: le_bytes k (z / 256) end.
Definition byte_count (z : Z) : Z := Z.max 1 ((bigint_bits z + 7) / 8).
Definition to_bytes_le (z : Z) : list N := le_bytes (Z.to_nat (byte_count z)) (Z.abs z).
Definition signed_byte_count (z : Z) : Z :=
  let k := byte_count z in
  if (2 ^ (8 * k - 1) <=? Z.abs z) && negb ((Z.abs z =? 2 ^ (8 * k - 1)) && (z <? 0)) then k + 1 else k.
Definition to_signed_bytes_le (z : Z) : list N := le_bytes (Z.to_nat (signed_byte_count z)) z.

(** [int_to_bytes], 3955-3962. *)
Definition int_to_bytes (v : Z) (e : endianness) (signed : bool) : list N :=
  match e, signed with
  | Big, false => rev (to_bytes_le v)
  | Big, true => rev (to_signed_bytes_le v)
  | Little, false => to_bytes_le v
  | Little, true => to_signed_bytes_le v
  end.

(** [representable_with_bits], 4098-4136. *)
Definition u32_max : Z := 4294967295.
Definition representable_with_bits (v : Z) (bits : Z) (signed : bool) : bool :=
  if bits =? 0 then false
  else
    match
      match v, signed with
      | Z0, _ => Some 1
      | Zpos _, false => Some (bigint_bits v)
      | Zpos _, true => Some (bigint_bits v + 1)
      | Zneg _, false => None
      | Zneg p, true =>
          let bits_unsigned := bigint_bits v in
          if pos_trailing_zeros p =? bits_unsigned - 1 then Some bits_unsigned else Some (bits_unsigned + 1)
      end
    with
    | None => false
    | Some required_bits => if required_bits <=? u32_max then required_bits <=? bits else false
    end.

(** [IntToBitsError], 3964-3969; [MAX_BITS_INTERFERENCE], 1349. *)
Inductive int_to_bits_error := Unrepresentable (size : Z) | ExceedsMaximumSize | NonConstantSize.
Inductive bits_result := BitsOk (bits : bits) | BitsErr (error : int_to_bits_error).
Definition max_bits_interference : Z := 65535.

(** [*last_byte <<= shift], on [u8]. *)
Fixpoint shift_last (shift : N) (bs : list N) : list N :=
  match bs with
  | [] => []
  | [b] => [N.shiftl b shift mod 256]%N
  | b :: bs => b :: shift_last shift bs
  end.

(** [int_to_bits], 3887-3953. *)
Definition int_to_bits (v : Z) (read_size : read_size) (e : endianness) (signed : bool) : bits_result :=
  match size_constant_bits read_size with
  | None => BitsErr NonConstantSize
  | Some size =>
      if negb ((0 <=? size) && (size <=? u32_max)) then BitsErr ExceedsMaximumSize
      else if negb (representable_with_bits v size signed) then BitsErr (Unrepresentable size)
      else if max_bits_interference <? size then BitsErr ExceedsMaximumSize
      else
        let pad_digit := v <? 0 in
        let size := Z.to_nat size in
        let bytes := int_to_bytes v e signed in
        let bytes_size := (length bytes * 8)%nat in
        BitsOk
          match e, Nat.compare bytes_size size with
          | _, Eq => bytes_bits bytes
          | Big, Gt => skipn (bytes_size - size) (bytes_bits bytes)
          | Big, Lt => repeat pad_digit (size - bytes_size) ++ bytes_bits bytes
          | Little, Gt =>
              let remainder := Nat.modulo size 8 in
              if Nat.eqb remainder 0 then bytes_bits bytes
              else firstn size (bytes_bits (shift_last (N.of_nat (8 - remainder)) bytes))
          | Little, Lt => bytes_bits bytes ++ repeat pad_digit (size - bytes_size)
          end
  end.

(** ** Tests *)

(** [BitArrayMatchedValue], 1315-1338; [StringEncoding] is dropped with the locations:
    nothing here looks at it. *)
Inductive matched_value :=
  | LiteralFloat (value : text)
  | LiteralInt (value : Z) (bits : bits_result)
  | LiteralString (value : text) (bytes : list N)
  | MVariable (name : text)
  | MDiscard (name : text)
  | MAssign (name : text) (value : matched_value).

(** [is_literal], 1351-1360. *)
Fixpoint is_literal (v : matched_value) : bool :=
  match v with
  | LiteralFloat _ | LiteralInt _ _ | LiteralString _ _ => true
  | MVariable _ | MDiscard _ => false
  | MAssign _ v => is_literal v
  end.

(** [constant_bits], 1365-1378. *)
Fixpoint value_constant_bits (v : matched_value) : option bits :=
  match v with
  | LiteralString _ bytes => Some (bytes_bits bytes)
  | MAssign _ v => value_constant_bits v
  | LiteralInt _ (BitsOk b) => Some b
  | LiteralInt _ (BitsErr _) | LiteralFloat _ | MVariable _ | MDiscard _ => None
  end.

(** [is_impossible_segment], 1382-1410: whether there is a reason. *)
Fixpoint is_impossible_segment (v : matched_value) : bool :=
  match v with
  | MAssign _ v => is_impossible_segment v
  | LiteralInt _ (BitsErr (Unrepresentable _)) => true
  | LiteralInt _ _ | LiteralFloat _ | LiteralString _ _ | MVariable _ | MDiscard _ => false
  end.

(** [checking_same_value], 1422-1464. *)
Fixpoint checking_same_value (self other : matched_value) : bool :=
  match self, other with
  | LiteralInt a _, LiteralInt b _ => a =? b
  | LiteralFloat a, LiteralFloat b => text_eqb a b
  | LiteralString _ a, LiteralString _ b => text_eqb a b
  | MVariable a, MVariable b => text_eqb a b
  | MDiscard _, MDiscard _ => true
  | MAssign _ a, MAssign _ b => checking_same_value a b
  | _, _ => false
  end.

(** [SizeOperator] 1640-1643, [SizeTest] 1072-1075, [MatchTest] 1133-1137, [BitArrayTest]
    996-1028. *)
Inductive size_operator := GreaterEqual | Equal.
Inductive test :=
  | Size (operator : size_operator) (size : offset)
  | Match (value : matched_value) (read : read_action)
  | CatchAllIsBytes (size_so_far : offset)
  | ReadSizeIsNotNegative (size : read_size)
  | SegmentIsFiniteFloat (read : read_action).

(** [SizeTest::succeeds_if_succeeding] 1087-1095, [fails_if_failing] 1103-1109,
    [fails_if_succeeding] 1117-1128. *)
Definition size_succeeds_if_succeeding (op : size_operator) (size : offset)
    (s_op : size_operator) (s_size : offset) : bool :=
  match s_op, op with
  | Equal, Equal => offset_eqb s_size size
  | _, GreaterEqual => greater_equal s_size size
  | _, _ => false
  end.
Definition size_operator_eqb (a b : size_operator) : bool :=
  match a, b with GreaterEqual, GreaterEqual | Equal, Equal => true | _, _ => false end.
Definition size_fails_if_failing (op : size_operator) (size : offset)
    (f_op : size_operator) (f_size : offset) : bool :=
  match f_op with
  | GreaterEqual => greater_equal size f_size
  | Equal => size_operator_eqb op f_op && offset_eqb size f_size
  end.
Definition size_fails_if_succeeding (op : size_operator) (size : offset)
    (s_op : size_operator) (s_size : offset) : bool :=
  match s_op, op with
  | GreaterEqual, Equal => greater s_size size
  | Equal, GreaterEqual => greater size s_size
  | Equal, Equal => different s_size size
  | _, _ => false
  end.

(** [Interference], 1139-1144. *)
Record interference := Interference {
  interfering_bits_are_equal : bool;
  first_encloses_second : bool;
  second_encloses_first : bool }.

(** [to_usize] *)
Definition to_usize (z : Z) : option Z :=
  if (0 <=? z) && (z <? 18446744073709551616) then Some z else None.

(** A slice [b[lo..hi]]; [None]: the index panics. *)
Definition slice_bits (b : bits) (lo hi : Z) : option bits :=
  if (lo <=? hi) && (hi <=? Z.of_nat (length b))
  then Some (firstn (Z.to_nat (hi - lo)) (skipn (Z.to_nat lo) b)) else None.

(** [range_contains], 1302-1308, on inclusive ranges. *)
Definition in_range (lo hi x : Z) : bool := (lo <=? x) && (x <=? hi).
Definition range_contains (one_lo one_hi other_lo other_hi : Z) : bool :=
  in_range one_lo one_hi other_lo && in_range one_lo one_hi other_hi.

(** The outcome of [interfering_bits]: an answer, no interference, or an index out of
    bounds. *)
Inductive interfering := Interferes (i : interference) | NoInterference | IndexPanic.

Definition bits_eqb (a b : bits) : bool :=
  Nat.eqb (length a) (length b) && forallb (fun p => Bool.eqb (fst p) (snd p)) (combine a b).

(** [MatchTest::interfering_bits], 1266-1299. *)
Definition interfering_bits (value : matched_value) (read : read_action)
    (other_value : matched_value) (other_read : read_action) : interfering :=
  match offset_constant_bits (ra_from read), offset_constant_bits (ra_from other_read) with
  | Some offset_one, Some offset_other =>
  match to_usize offset_one, to_usize offset_other with
  | Some offset_one, Some offset_other =>
  if offset_other <? offset_one then NoInterference else
  match size_constant_bits (ra_size read), size_constant_bits (ra_size other_read) with
  | Some size_one, Some size_other =>
  match to_usize size_one, to_usize size_other with
  | Some size_one, Some size_other =>
  if offset_one + size_one <=? offset_other then NoInterference else
  match value_constant_bits value, value_constant_bits other_value with
  | Some bits_one, Some bits_other =>
  let end_ := Z.min (offset_other + size_other) (offset_one + size_one) in
  match slice_bits bits_one (offset_other - offset_one) (end_ - offset_one),
        slice_bits bits_other 0 (end_ - offset_other) with
  | Some a, Some b =>
      Interferes
        {| interfering_bits_are_equal := bits_eqb a b;
           first_encloses_second :=
             range_contains offset_one (offset_one + size_one) offset_other (offset_other + size_other);
           second_encloses_first :=
             range_contains offset_other (offset_other + size_other) offset_one (offset_one + size_one) |}
  | _, _ => IndexPanic
  end
  | _, _ => NoInterference
  end
  | _, _ => NoInterference
  end
  | _, _ => NoInterference
  end
  | _, _ => NoInterference
  end
  | _, _ => NoInterference
  end.

(** [equivalent_to], 1489-1520. *)
Definition equivalent_to (self other : test) : bool :=
  match self, other with
  | Size a o, Size b p => size_operator_eqb a b && offset_eqb o p
  | Match v r, Match w q => checking_same_value v w && read_eqb r q
  | CatchAllIsBytes o, CatchAllIsBytes p => offset_eqb o p
  | ReadSizeIsNotNegative s, ReadSizeIsNotNegative z => size_eqb s z
  | SegmentIsFiniteFloat r, SegmentIsFiniteFloat q => read_eqb r q
  | _, _ => false
  end.

(** [BitArrayTest::succeeds_if_succeeding] 1530-1554, [fails_if_failing] 1563-1588,
    [fails_if_succeeding] 1597-1620.  A panic of [interfering_bits] shows as [false]; that
    it does not happen is a theorem. *)
Definition succeeds_if_succeeding (self succeeding : test) : bool :=
  if equivalent_to succeeding self then true
  else
    match succeeding, self with
    | Size s_op s_size, Size op size => size_succeeds_if_succeeding op size s_op s_size
    | Match v r, Match w q =>
        match interfering_bits v r w q with
        | Interferes i => interfering_bits_are_equal i && first_encloses_second i
        | _ => false
        end
    | _, _ => false
    end.
Definition fails_if_failing (self failing : test) : bool :=
  if equivalent_to failing self then true
  else
    match failing, self with
    | Size f_op f_size, Size op size => size_fails_if_failing op size f_op f_size
    | Match v r, Match w q =>
        match interfering_bits v r w q with
        | Interferes i => interfering_bits_are_equal i && second_encloses_first i
        | _ => false
        end
    | _, _ => false
    end.
Definition fails_if_succeeding (self succeeding : test) : bool :=
  match succeeding, self with
  | Size s_op s_size, Size op size => size_fails_if_succeeding op size s_op s_size
  | Match v r, Match w q =>
      match interfering_bits v r w q with
      | Interferes i => negb (interfering_bits_are_equal i)
      | _ => false
      end
  | _, _ => false
  end.

(** ** From segments to tests *)

(** The hash map of the names bound so far in the pattern. *)
Definition pattern_variables := list (text * read_action).
Fixpoint lookup_segment (name : text) (vs : pattern_variables) : option read_action :=
  match vs with
  | [] => None
  | (n, r) :: vs => if text_eqb name n then Some r else lookup_segment name vs
  end.

(** [bit_array_size], 4036-4079. *)
Fixpoint bit_array_size (unit : N) (vs : pattern_variables) (size : size_expr) : read_size :=
  match size with
  | SInt z => ConstantBits (z * Z.of_N unit)
  | SVariable name =>
      VariableBits
        match lookup_segment name vs with
        | Some r => PatternSegment name r
        | None => OutsideVariable name
        end unit
  | SBinaryOperator o l r =>
      let size := BinaryOperator (bit_array_size 1 vs l) (bit_array_size 1 vs r) o in
      if (unit =? 1)%N then size else BinaryOperator size (ConstantBits (Z.of_N unit)) Multiply
  | SBlock inner => bit_array_size unit vs inner
  end.

(** [segment_size], 3971-4034, for a segment with no explicit size and no [bits] or
    [bytes] option. *)
Definition is_int_type (t : read_type) : bool := match t with TInt => true | _ => false end.
Fixpoint default_size (s : segment) (pattern : seg_pattern) : read_size :=
  if is_int_type (type_ s) then ConstantBits 8
  else
    match pattern with
    | PAssign _ pattern => default_size s pattern
    | PString v =>
        if has_utf16_option s then
          ConstantBits (Z.of_nat (length_utf16 (convert_string_escape_chars v)) * 16)
        else if has_utf32_option s then
          ConstantBits (Z.of_nat (length_utf32 (convert_string_escape_chars v)) * 32)
        else ConstantBits (Z.of_nat (length (as_bytes (convert_string_escape_chars v))) * 8)
    | PInt _ | PFloat _ | PVariable _ | PDiscard _ => ConstantBits 64
    end.
Definition segment_size (s : segment) (vs : pattern_variables) : read_size :=
  match seg_size s with
  | Some size => bit_array_size (seg_unit s) vs size
  | None =>
      if has_bits_option s then RemainingBits
      else if has_bytes_option s then RemainingBytes
      else default_size s (value s)
  end.

(** [segment_matched_value], 3820-3884. *)
Fixpoint segment_matched_value (s : segment) (pattern : seg_pattern) (r : read_action) : matched_value :=
  match pattern with
  | PInt z => LiteralInt z (int_to_bits z (ra_size r) (ra_endianness r) (ra_signed r))
  | PFloat v => LiteralFloat v
  | PString v =>
      LiteralString v
        (if has_utf16_option s then string_to_utf16_bytes (convert_string_escape_chars v) (ra_endianness r)
         else if has_utf32_option s then string_to_utf32_bytes (convert_string_escape_chars v) (ra_endianness r)
         else as_bytes (convert_string_escape_chars v))
  | PVariable n => MVariable n
  | PDiscard n => MDiscard n
  | PAssign n pattern => MAssign n (segment_matched_value s pattern r)
  end.

(** [bit_array_to_tests], 3707-3817: the tests of one segment, and the loop. *)
Definition size_tests (previous_end : offset) (size : read_size) (is_last : bool) : list test :=
  match size with
  | RemainingBits => []
  | RemainingBytes =>
      [CatchAllIsBytes
         (Offset (Z.rem (constant previous_end) 8) (variables previous_end) (calculations previous_end))]
  | ConstantBits _ | VariableBits _ _ | BinaryOperator _ _ _ =>
      [Size (if is_last then Equal else GreaterEqual) (add_size previous_end size)]
  end.
Definition segment_tests (s : segment) (previous_end : offset) (size : read_size) (is_last : bool)
    (r : read_action) (v : matched_value) : list test :=
  (if can_be_negative size then [ReadSizeIsNotNegative size] else [])
  ++ size_tests previous_end size is_last
  ++ (if match type_ s with TFloat => negb (is_literal v) | _ => false end
      then [SegmentIsFiniteFloat r] else [])
  ++ [Match v r].
Fixpoint segments_loop (segments : list segment) (previous_end : offset) (vs : pattern_variables) : list test :=
  match segments with
  | [] => []
  | s :: segments =>
      let size := segment_size s vs in
      let r := ReadAction previous_end size (type_ s) (seg_endianness s) (seg_signed s) in
      let v := segment_matched_value s (value s) r in
      let vs :=
        match v with
        | MVariable name | MAssign name _ => (name, r) :: vs
        | LiteralFloat _ | LiteralInt _ _ | LiteralString _ _ | MDiscard _ => vs
        end in
      segment_tests s previous_end size (match segments with [] => true | _ => false end) r v
      ++ segments_loop segments (add_size previous_end size) vs
  end.
Definition bit_array_to_tests (segments : list segment) : list test :=
  match segments with
  | [] => [Size Equal (constant_offset 0)]
  | _ => segments_loop segments (constant_offset 0) []
  end.
