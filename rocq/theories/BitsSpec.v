(** What bit array patterns and tests mean, independently of how the compiler rewrites
    them.  Only data types (segments, sizes, tests) come from the model. *)
From Coq Require Import ZArith NArith Bool List.
From Verif Require Import Text Strings StringsSpec Bits.
Import ListNotations.
Local Open Scope Z_scope.

(** ** Integers written in bits *)
Fixpoint uint_be_from (acc : Z) (b : list bool) : Z :=
  match b with [] => acc | x :: b => uint_be_from (2 * acc + Z.b2z x) b end.
(** Most significant bit first. *)
Definition uint_be (b : list bool) : Z := uint_be_from 0 b.
(** Least significant byte first; inside a byte, and in what remains after the last whole
    byte, most significant bit first. *)
Fixpoint uint_le (b : list bool) : Z :=
  match b with
  | b0 :: b1 :: b2 :: b3 :: b4 :: b5 :: b6 :: b7 :: rest =>
      uint_be [b0; b1; b2; b3; b4; b5; b6; b7] + 256 * uint_le rest
  | _ => uint_be b
  end.
Definition uint_of (e : endianness) (b : list bool) : Z :=
  match e with Big => uint_be b | Little => uint_le b end.
(** Two's complement. *)
Definition int_of (e : endianness) (signed : bool) (b : list bool) : Z :=
  match b with
  | [] => 0
  | _ =>
      let u := uint_of e b in
      let n := Z.of_nat (length b) in
      if signed && (2 ^ (n - 1) <=? u) then u - 2 ^ n else u
  end.

(** The bytes of a whole number of bytes. *)
Fixpoint bytes_of (b : list bool) : option (list Z) :=
  match b with
  | [] => Some []
  | b0 :: b1 :: b2 :: b3 :: b4 :: b5 :: b6 :: b7 :: rest =>
      option_map (cons (uint_be [b0; b1; b2; b3; b4; b5; b6; b7])) (bytes_of rest)
  | _ => None
  end.

(** Integer arithmetic of the language: division truncates, and by zero gives zero. *)
Definition arith (o : int_operator) (x y : Z) : Z :=
  match o with
  | Add => x + y
  | Subtract => x - y
  | Multiply => x * y
  | Divide => if y =? 0 then 0 else Z.quot x y
  | Remainder => if y =? 0 then 0 else Z.rem x y
  end.

(** [size] bits from bit [from] on, if they are all there. *)
Definition read (b : list bool) (from size : Z) : option (list bool) :=
  if (0 <=? from) && (0 <=? size) && (from + size <=? Z.of_nat (length b))
  then Some (firstn (Z.to_nat size) (skipn (Z.to_nat from) b)) else None.

Section Semantics.
  (** The values of the variables that are in scope outside the pattern; when bits are the
      given float, and when they are a finite float. *)
  Context (outside : text -> Z)
          (float_is : text -> endianness -> list bool -> bool)
          (finite : endianness -> list bool -> bool).

  Section Tests.
    Context (b : list bool).

    (** The value of a size variable, an offset and a size.  A segment variable is the
        integer its bits spell; it has no meaning when they are not there, and is 0 then. *)
    Fixpoint eval_var (v : variable_usage) : Z :=
      match v with
      | PatternSegment _ (ReadAction f s _ e sg) =>
          match read b (eval_offset f) (eval_size s) with Some c => int_of e sg c | None => 0 end
      | OutsideVariable n => outside n
      end
    with eval_offset (o : offset) : Z :=
      let 'Offset c vs cs := o in c + eval_bag vs + eval_calcs cs
    with eval_bag (m : bag) : Z :=
      match m with BNil => 0 | BCons k n m => Z.of_N n * eval_var k + eval_bag m end
    with eval_calcs (cs : calcs) : Z :=
      match cs with CNil => 0 | CCons l r o cs => arith o (eval_offset l) (eval_offset r) + eval_calcs cs end
    with eval_size (s : read_size) : Z :=
      match s with
      | ConstantBits z => z
      | VariableBits v u => eval_var v * Z.of_N u
      | BinaryOperator l r o => arith o (eval_size l) (eval_size r)
      | RemainingBits | RemainingBytes => 0
      end.

    (** The bits a read action reads. *)
    Definition read_of (r : read_action) : option (list bool) :=
      let from := eval_offset (ra_from r) in
      match ra_size r with
      | RemainingBits | RemainingBytes => read b from (Z.of_nat (length b) - from)
      | s => read b from (eval_size s)
      end.

    Fixpoint value_matches (v : matched_value) (e : endianness) (sg : bool) (c : list bool) : bool :=
      match v with
      | LiteralFloat t => float_is t e c
      | LiteralInt z _ => int_of e sg c =? z
      | LiteralString _ bytes =>
          match bytes_of c with
          | Some bs => if list_eq_dec Z.eq_dec bs (map Z.of_N bytes) then true else false
          | None => false
          end
      | MVariable _ | MDiscard _ => true
      | MAssign _ v => value_matches v e sg c
      end.

    (** When a test holds. *)
    Definition holds (t : test) : bool :=
      match t with
      | Size GreaterEqual o => eval_offset o <=? Z.of_nat (length b)
      | Size Equal o => eval_offset o =? Z.of_nat (length b)
      | Match v r =>
          match read_of r with
          | Some c => value_matches v (ra_endianness r) (ra_signed r) c
          | None => false
          end
      | CatchAllIsBytes o => (Z.of_nat (length b) - eval_offset o) mod 8 =? 0
      | ReadSizeIsNotNegative s => 0 <=? eval_size s
      | SegmentIsFiniteFloat r =>
          match read_of r with Some c => finite (ra_endianness r) c | None => false end
      end.

    (** The names that tests bind, with the bits they are bound to. *)
    Fixpoint value_names (v : matched_value) : list text :=
      match v with
      | MVariable n => [n]
      | MAssign n v => n :: value_names v
      | _ => []
      end.
    Definition bindings (ts : list test) : list (text * list bool) :=
      flat_map (fun t =>
        match t with
        | Match v r => match read_of r with Some c => map (fun x => (x, c)) (value_names v) | None => [] end
        | _ => []
        end) ts.

    (** Every size variable an offset adds is at least 0. *)
    Fixpoint bag_nonneg (m : bag) : Prop :=
      match m with BNil => True | BCons k _ m => 0 <= eval_var k /\ bag_nonneg m end.
    Definition sizes_nonneg (t : test) : Prop :=
      match t with Size _ o => bag_nonneg (variables o) | _ => True end.
  End Tests.

  (** ** Matching segment by segment *)
  Definition scope := text -> Z.
  Definition extend (env : scope) (n : text) (z : Z) : scope := fun m => if text_eqb m n then z else env m.

  Fixpoint size_value (env : scope) (s : size_expr) : Z :=
    match s with
    | SInt z => z
    | SVariable n => env n
    | SBinaryOperator o l r => arith o (size_value env l) (size_value env r)
    | SBlock s => size_value env s
    end.

  Definition little (s : segment) : bool :=
    existsb (fun o => match o with OLittle => true | _ => false end) (options s).
  Definition endian (s : segment) : endianness := if little s then Little else Big.
  Definition is_signed (s : segment) : bool :=
    existsb (fun o => match o with OSigned => true | _ => false end) (options s).

  (** How far a segment reaches: a number of bits, or the rest of the array in bits or in
      whole bytes. *)
  Inductive extent := Bits_ (n : Z) | Rest_bits | Rest_bytes.
  Inductive unit_of (s : segment) : Z -> Prop :=
    | explicit_unit u : In (OUnit u) (options s) -> unit_of s (Z.of_N u)
    | bytes_unit : (forall u, ~ In (OUnit u) (options s)) -> In OBytes (options s) -> unit_of s 8
    | bits_unit : (forall u, ~ In (OUnit u) (options s)) -> ~ In OBytes (options s) -> unit_of s 1.
  (** The literal inside the names given with [as]. *)
  Fixpoint strip (p : seg_pattern) : seg_pattern := match p with PAssign _ p => strip p | _ => p end.
  Definition encoding (s : segment) (t : text) : list N :=
    let t := convert_string_escape_chars t in
    if existsb (fun o => match o with OUtf16 => true | _ => false end) (options s)
    then string_to_utf16_bytes t (endian s)
    else if existsb (fun o => match o with OUtf32 => true | _ => false end) (options s)
    then string_to_utf32_bytes t (endian s)
    else as_bytes t.
  Inductive extent_of (env : scope) (s : segment) : extent -> Prop :=
    | explicit_extent e short u : In (OSize e short) (options s) -> unit_of s u ->
        extent_of env s (Bits_ (size_value env e * u))
    | rest_bits : (forall e short, ~ In (OSize e short) (options s)) -> In OBits (options s) ->
        extent_of env s Rest_bits
    | rest_bytes : (forall e short, ~ In (OSize e short) (options s)) -> ~ In OBits (options s) ->
        In OBytes (options s) -> extent_of env s Rest_bytes
    | default_int : (forall e short, ~ In (OSize e short) (options s)) ->
        ~ In OBits (options s) -> ~ In OBytes (options s) -> type_ s = TInt ->
        extent_of env s (Bits_ 8)
    | default_string t : (forall e short, ~ In (OSize e short) (options s)) ->
        ~ In OBits (options s) -> ~ In OBytes (options s) -> type_ s <> TInt ->
        strip (value s) = PString t ->
        extent_of env s (Bits_ (8 * Z.of_nat (length (encoding s t))))
    | default_other : (forall e short, ~ In (OSize e short) (options s)) ->
        ~ In OBits (options s) -> ~ In OBytes (options s) -> type_ s <> TInt ->
        (forall t, strip (value s) <> PString t) ->
        extent_of env s (Bits_ 64).

  (** Whether the bits [c] of a segment match its pattern. *)
  Fixpoint chunk_matches (s : segment) (p : seg_pattern) (c : list bool) : Prop :=
    match p with
    | PInt z => int_of (endian s) (is_signed s) c = z
    | PFloat t => float_is t (endian s) c = true
    | PString t => bytes_of c = Some (map Z.of_N (encoding s t))
    | PVariable _ | PDiscard _ => type_ s = TFloat -> finite (endian s) c = true
    | PAssign _ p => chunk_matches s p c
    end.
  (** The names a segment binds: all of them name its bits. *)
  Fixpoint names (p : seg_pattern) : list text :=
    match p with
    | PVariable n => [n]
    | PAssign n p => n :: names p
    | _ => []
    end.
  (** [matches env segs rest bound]: the segments match all of [rest], in order, binding
      the names [bound] to pieces of it; a later segment's size may use an earlier name. *)
  Inductive matches : scope -> list segment -> list bool -> list (text * list bool) -> Prop :=
    | matches_nil env : matches env [] [] []
    | matches_bits env s segs n c rest bound :
        extent_of env s (Bits_ n) -> Z.of_nat (length c) = n ->
        chunk_matches s (value s) c ->
        matches (fold_left (fun env x => extend env x (int_of (endian s) (is_signed s) c)) (names (value s)) env)
                segs rest bound ->
        matches env (s :: segs) (c ++ rest) (map (fun x => (x, c)) (names (value s)) ++ bound)
    | matches_rest_bits env s c :
        extent_of env s Rest_bits -> chunk_matches s (value s) c ->
        matches env [s] c (map (fun x => (x, c)) (names (value s)))
    | matches_rest_bytes env s c :
        extent_of env s Rest_bytes -> Z.of_nat (length c) mod 8 = 0 -> chunk_matches s (value s) c ->
        matches env [s] c (map (fun x => (x, c)) (names (value s))).

  (** What the type checker guarantees of the segments of a pattern: options are not
      repeated, a rest segment is the last one, a string literal has its own size, and no
      two names are given to the same segment. *)
  Definition is_size (o : bit_array_option size_expr) : bool := match o with OSize _ _ => true | _ => false end.
  Definition is_unit (o : bit_array_option size_expr) : bool := match o with OUnit _ => true | _ => false end.
  Definition takes_rest (s : segment) : bool :=
    negb (existsb is_size (options s))
    && existsb (fun o => match o with OBits | OBytes => true | _ => false end) (options s).
  Definition valid_segment (s : segment) : Prop :=
    (length (filter is_size (options s)) <= 1)%nat /\
    (length (filter is_unit (options s)) <= 1)%nat /\
    (forall t, strip (value s) = PString t ->
       Forall scalar_value (convert_string_escape_chars t) /\
       type_ s = TString /\ ~ In OBits (options s) /\ ~ In OBytes (options s) /\
       (forall e short, ~ In (OSize e short) (options s))) /\
    (forall n p, value s = PAssign n p -> names p = []).
  Fixpoint valid_segments (segs : list segment) : Prop :=
    match segs with
    | [] => True
    | [s] => valid_segment s
    | s :: segs => valid_segment s /\ takes_rest s = false /\ valid_segments segs
    end.
End Semantics.
