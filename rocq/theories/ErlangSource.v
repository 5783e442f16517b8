(** The builder of Erlang source of erlang-generation/src/lib.rs.

    Simplifications: spans are left out (the builder ignores them), the types of open items
    ([Self::Tuple], [Self::Call], ...) are all [()] and so left out; iterators are lists;
    [usize] is [nat], and taking [INDENT] from an indentation below it is a panic; [None] is a
    panic.  The stack of positions has its last element first. *)
From Coq Require Import String NArith ZArith List Bool.
From Verif Require Import Text.
Import ListNotations.
Local Open Scope list_scope.

(** [ListKind] and [BitArrayKind], 1595-1610. *)
Inductive kind := Pattern | Expression.
Definition kind_eqb (a b : kind) : bool :=
  match a, b with Pattern, Pattern | Expression, Expression => true | _, _ => false end.

(** 1612-1763 *)
Inductive type_spec_item := TypeDefinition | TypeSpecIsOver.
Inductive function_type_item := TypeArguments (first : bool) | ReturnType.
Inductive match_side := MatchOnPattern | MatchOnExpression.
Inductive match_pattern_side := PatternLeft | PatternRight.
Inductive list_item := First | Rest | ListIsOver.
Inductive segment_item := SegmentValue (k : kind) | SegmentSize | SegmentSpecifiers.
Inductive call_item := FunctionToBeCalled | CallArguments (first : bool).
Inductive operator_side := OperatorLeft | OperatorRight | BinaryOperatorIsOver.
Inductive case_item := Subject | Branches (first : bool).
Inductive clause_item := ClausePattern | Guards (first : bool) | Body (first : bool).
Inductive map_item := MapKey | MapValue.
Inductive record_item := FieldName | FieldType.

(** [ErlangSourceBuilderPosition], 1402-1593. *)
Inductive position :=
| AtFunctionSpec
| AtTypeSpec (expected : type_spec_item)
| AtFunctionType (expected : function_type_item) (needs_wrapping : bool)
| AtNamedType (first : bool)
| AtUnionType (first : bool)
| AtTupleType (first : bool)
| AtFunctionStatement (first : bool)
| AtAnonymousFunctionStatement (first : bool)
| AtMatchOperator (expected : match_side)
| AtMatchPattern (expected : match_pattern_side)
| AtList (k : kind) (expected : list_item)
| AtUnaryOperator
| AtTuple (first : bool)
| AtTuplePattern (first : bool)
| AtBitArray (k : kind) (first : bool)
| AtBitArraySegment (expected : segment_item) (value_needs_wrapping size_needs_wrapping : bool)
| AtBlock (first : bool)
| AtFunctionCall (expected : call_item) (called_item_needs_wrapping : bool)
| AtBinaryOperator (expected : operator_side) (needs_wrapping : bool) (operator : text)
| AtCase (expected : case_item)
| AtCaseClause (expected : clause_item)
| AtMap (first : bool)
| AtMapField (expected : map_item)
| AtRecordAttribute (first : bool)
| AtRecordField (expected : record_item)
| AtClauseGuard.

(** [ErlangSourceBuilder], 1390-1398. *)
Record builder := Builder { code : text; positions : list position; indentation : nat }.

(** [BitArraySegmentSpecifier], 95-111. *)
Inductive specifier :=
| Utf8 | Utf16 | Utf32 | Integer | Floating | Binary | Bitstring | Signed | Unsigned
| Little | Big | Native | Unit (n : N).

(** A 64-bit float that is neither infinite nor a NaN, as the decimal digits Rust prints for it. *)
Record float := Float { negative : bool; whole : text; fraction : text }.

(** 2637 *)
Definition INDENT : nat := 4.

(** [String::push_str] *)
Definition push_str (t : text) (b : builder) : builder :=
  Builder (code b ++ t) (positions b) (indentation b).
(** [Vec::push] on the positions *)
Definition push (p : position) (b : builder) : builder :=
  Builder (code b) (p :: positions b) (indentation b).
(** [*last = p] *)
Definition set_last (p : position) (b : builder) : builder :=
  Builder (code b) (p :: tl (positions b)) (indentation b).
(** [Vec::pop] *)
Definition pop (b : builder) : builder := Builder (code b) (tl (positions b)) (indentation b).
Definition last (b : builder) : option position := hd_error (positions b).
(** [self.indentation += INDENT] and [-= INDENT] *)
Definition indent (b : builder) : builder :=
  Builder (code b) (positions b) (indentation b + INDENT).
Definition unindent (b : builder) : option builder :=
  if Nat.leb INDENT (indentation b)
  then Some (Builder (code b) (positions b) (indentation b - INDENT))
  else None.
(** [push_indentation], 3658-3662 *)
Definition push_indentation (b : builder) : builder := push_str (repeat 32%N (indentation b)) b.

(** ** Atoms and strings *)

(** [is_erlang_reserved_word], 3733-3767. *)
Definition reserved_words : list text := map str
  ["!"; "receive"; "bnot"; "div"; "rem"; "band"; "bor"; "bxor"; "bsl"; "bsr"; "not"; "and";
   "or"; "xor"; "orelse"; "andalso"; "when"; "end"; "fun"; "try"; "catch"; "after"; "begin";
   "let"; "query"; "cond"; "if"; "of"; "case"; "maybe"; "else"]%string.
Definition is_erlang_reserved_word (name : text) : bool := existsb (text_eqb name) reserved_words.

(** [atom_name_regex], 3729-3731: [^[a-z][a-z0-9_@]*$]. *)
Definition atom_name_regex (name : text) : bool :=
  match name with
  | [] => false
  | c :: name =>
      is_lower c && forallb (fun c => is_lower c || is_digit c || (c =? 95)%N || (c =? 64)%N) name
  end.

(** [quote_atom_name], 3715-3725. *)
Definition quote_atom_name (name : text) : text :=
  if is_erlang_reserved_word name then [39%N] ++ name ++ [39%N]
  else if atom_name_regex name then name
  else [39%N] ++ name ++ [39%N].

(** [escape_literal_string_content], 3695-3712: the matches of [(\\+)(u)], from left to right, are
    a run of backslashes followed by [u]; [slashes] is the length of the run that ends here. *)
Fixpoint escape_from (slashes : nat) (content : text) : text :=
  match content with
  | [] => []
  | c :: content =>
      if (c =? 92)%N then c :: escape_from (S slashes) content
      else if (c =? 117)%N && Nat.odd slashes then 120%N :: escape_from 0 content
      else c :: escape_from 0 content
  end.
Definition escape_literal_string_content (content : text) : text := escape_from 0 content.

(** [str::replace] of one character *)
Definition replace (c : N) (by_ : text) (s : text) : text :=
  flat_map (fun d => if (d =? c)%N then by_ else [d]) s.

(** [DocContent], 114-119. *)
Inductive doc := DocFalse | DocString (content : text).
(** [doc_content], 3674-3689. *)
Definition doc_content (content : doc) (b : builder) : builder :=
  match content with
  | DocFalse => push_str (str "false") b
  | DocString content =>
      push_str [34%N] (push_str (replace 34 [92; 34]%N (replace 92 [92; 92]%N content))
        (push_str [126; 34]%N b))
  end.

(** [format_float], 2623-2637. *)
Definition zeros (s : text) : bool := forallb (N.eqb 48) s.
Definition format_float (n : float) : text :=
  if zeros (whole n) && zeros (fraction n) then
    if negative n then str "-0.0" else str "+0.0"
  else
    (if negative n then str "-" else []) ++ whole n ++ str "." ++
    (if zeros (fraction n) then str "0" else fraction n).

(** [BigInt::to_string] *)
Definition int_to_string (z : Z) : text :=
  match z with
  | Zneg p => str "-" ++ decimal (Npos p)
  | _ => decimal (Z.to_N z)
  end.

(** ** Positions *)

(** [pop_leftover_items], 3525-3640: on the code and the stack. *)
Fixpoint pop_leftover (c : text) (ps : list position) : text * list position :=
  match ps with
  | AtTypeSpec TypeSpecIsOver :: ps' => pop_leftover (c ++ str "." ++ [10%N]) ps'
  | AtList _ ListIsOver :: ps' => pop_leftover (c ++ str "]") ps'
  | AtBinaryOperator BinaryOperatorIsOver needs_wrapping _ :: ps' =>
      pop_leftover (if needs_wrapping then c ++ str ")" else c) ps'
  | _ => (c, ps)
  end.
Definition pop_leftover_items (b : builder) : builder :=
  let '(c, ps) := pop_leftover (code b) (positions b) in Builder c ps (indentation b).

(** [new_top_level_form], 2650-2655. *)
Definition new_top_level_form (b : builder) : option builder :=
  let b := pop_leftover_items b in
  match positions b with [] => Some b | _ :: _ => None end.

(** [if !first { push separator }; first = false] *)
Definition separator (sep : text) (first : bool) (b : builder) : builder :=
  if first then b else push_str sep b.

(** [new_expression], 2665-2873. *)
Definition new_expression (b : builder) : option builder :=
  let b := pop_leftover_items b in
  match last b with
  | None => None
  | Some p =>
      match p with
      | AtRecordField FieldName => Some (set_last (AtRecordField FieldType) b)
      | AtCase Subject => Some (set_last (AtCase (Branches true)) b)
      | AtFunctionCall FunctionToBeCalled wrap =>
          Some (set_last (AtFunctionCall (CallArguments true) wrap)
            (if wrap then push_str (str "(") b else b))
      | AtFunctionCall (CallArguments first) wrap =>
          let b := if wrap then push_str (str ")") b else b in
          Some (set_last (AtFunctionCall (CallArguments false) false)
            (push_str (if first then str "(" else str ", ") b))
      | AtTuple first => Some (set_last (AtTuple false) (separator (str ", ") first b))
      | AtList Expression First => Some (set_last (AtList Expression Rest) b)
      | AtList Expression Rest => Some (push_str (str " | ") (set_last (AtList Expression ListIsOver) b))
      | AtBinaryOperator OperatorLeft wrap op => Some (set_last (AtBinaryOperator OperatorRight wrap op) b)
      | AtBinaryOperator OperatorRight wrap op =>
          Some (push_str (str " ") (push_str op (push_str (str " ")
            (set_last (AtBinaryOperator BinaryOperatorIsOver wrap op) b))))
      | AtFunctionStatement first =>
          Some (push_indentation (push_str [10%N]
            (set_last (AtFunctionStatement false) (separator (str ",") first b))))
      | AtAnonymousFunctionStatement first =>
          Some (push_indentation (push_str [10%N]
            (set_last (AtAnonymousFunctionStatement false) (separator (str ",") first b))))
      | AtBlock first =>
          Some (push_indentation (push_str [10%N]
            (set_last (AtBlock false) (separator (str ",") first b))))
      | AtCaseClause (Body first) =>
          Some (push_indentation (push_str [10%N]
            (set_last (AtCaseClause (Body false)) (separator (str ",") first b))))
      | AtBitArraySegment (SegmentValue Expression) value_wrap size_wrap =>
          Some (set_last (AtBitArraySegment SegmentSize value_wrap size_wrap)
            (if value_wrap then push_str (str "(") b else b))
      | AtBitArraySegment SegmentSize value_wrap size_wrap =>
          let b := if value_wrap then push_str (str ")") b else b in
          let b := push_str (str ":") (set_last (AtBitArraySegment SegmentSpecifiers false size_wrap) b) in
          Some (if size_wrap then push_str (str "(") b else b)
      | AtClauseGuard => Some (push_str (str " when ") b)
      | AtMapField MapKey => Some (set_last (AtMapField MapValue) b)
      | AtMapField MapValue => Some (pop (push_str (str " => ") b))
      | AtMatchOperator MatchOnExpression => Some (pop (push_str (str " = ") b))
      | AtUnaryOperator => Some (pop b)
      | _ => None
      end
  end.

(** [new_type], 2881-2960.  (An [AtTypeSpec] below is the one of [type_spec_item].) *)
Definition new_type (b : builder) : option builder :=
  let b := pop_leftover_items b in
  match last b with
  | None => None
  | Some p =>
      match p with
      | AtFunctionSpec => Some b
      | AtFunctionType ReturnType _ => Some b
      | AtTypeSpec TypeDefinition => Some (set_last (AtTypeSpec TypeSpecIsOver) b)
      | AtFunctionType (TypeArguments first) wrap =>
          Some (set_last (AtFunctionType (TypeArguments false) wrap) (separator (str ", ") first b))
      | AtTupleType first => Some (set_last (AtTupleType false) (separator (str ", ") first b))
      | AtNamedType first => Some (set_last (AtNamedType false) (separator (str ", ") first b))
      | AtUnionType first => Some (set_last (AtUnionType false) (separator (str " | ") first b))
      | AtRecordField FieldType => Some (pop (push_str (str " :: ") b))
      | _ => None
      end
  end.

(** [new_pattern], 2969-3088. *)
Definition new_pattern (b : builder) : option builder :=
  let b := pop_leftover_items b in
  match last b with
  | None => None
  | Some p =>
      match p with
      | AtList Pattern First => Some (set_last (AtList Pattern Rest) b)
      | AtList Pattern Rest => Some (push_str (str " | ") (set_last (AtList Pattern ListIsOver) b))
      | AtBitArraySegment (SegmentValue Pattern) value_wrap size_wrap =>
          Some (set_last (AtBitArraySegment SegmentSize value_wrap size_wrap)
            (if value_wrap then push_str (str "(") b else b))
      | AtMatchOperator MatchOnPattern => Some (set_last (AtMatchOperator MatchOnExpression) b)
      | AtCaseClause ClausePattern => Some b
      | AtTuplePattern first => Some (set_last (AtTuplePattern false) (separator (str ", ") first b))
      | AtMatchPattern PatternLeft => Some (set_last (AtMatchPattern PatternRight) b)
      | AtMatchPattern PatternRight => Some (pop (push_str (str " = ") b))
      | _ => None
      end
  end.

(** What [close_currently_open_item] writes for an item closed on a line of its own: 3105-3121,
    3196-3200, 3216-3226. *)
Definition close_on_new_line (closing : text) (b : builder) : option builder :=
  match unindent b with
  | None => None
  | Some b => Some (push_str closing (push_indentation (push_str [10%N] b)))
  end.

(** [close_currently_open_item], 3090-3246. *)
Definition close_currently_open_item (b : builder) : option builder :=
  let b := pop_leftover_items b in
  match last b with
  | None => Some b
  | Some p =>
      let b := pop b in
      match p with
      | AtFunctionStatement _ => option_map (push_str (str "." ++ [10%N])) (unindent b)
      | AtAnonymousFunctionStatement _ => close_on_new_line (str "end") b
      | AtBlock _ => close_on_new_line (str "end") b
      | AtFunctionSpec => Some (push_str (str ".") b)
      | AtFunctionCall (CallArguments first) wrap =>
          let b := if wrap then push_str (str ")") b else b in
          Some (push_str (if first then str "()" else str ")") b)
      | AtTupleType _ | AtTuple _ | AtTuplePattern _ => Some (push_str (str "}") b)
      | AtBitArray _ _ => Some (push_str (str ">>") b)
      | AtFunctionType (TypeArguments _) wrap =>
          Some (push_str (str ") -> ") (push (AtFunctionType ReturnType wrap) b))
      | AtNamedType _ => Some (push_str (str ")") b)
      | AtFunctionType ReturnType wrap => Some (if wrap then push_str (str ")") b else b)
      | AtUnionType _ => Some b
      | AtCase (Branches _) => close_on_new_line (str "end") b
      | AtClauseGuard => Some b
      | AtCaseClause ClausePattern => Some b
      | AtCaseClause (Guards _) => Some (push_str (str " ->") b)
      | AtCaseClause (Body _) => unindent b
      | AtMap _ => close_on_new_line (str "}") b
      | AtRecordAttribute _ => close_on_new_line (str "}).") b
      | _ => None
      end
  end.

(** [new_bit_array_segment], 3334-3348. *)
Definition new_bit_array_segment (b : builder) : option (kind * builder) :=
  let b := pop_leftover_items b in
  match last b with
  | Some (AtBitArray k first) =>
      Some (k, set_last (AtBitArray k false) (separator (str ", ") first b))
  | _ => None
  end.

(** [new_case_clause], 3350-3367. *)
Definition new_case_clause (b : builder) : option builder :=
  let b := pop_leftover_items b in
  match last b with
  | Some (AtCase (Branches first)) =>
      let b := set_last (AtCase (Branches false)) b in
      let b := if first then indent (push_str (str " of" ++ [10%N]) b)
               else push_str (str ";" ++ [10; 10]%N) b in
      Some (push_indentation b)
  | _ => None
  end.

(** [new_map_field], 3369-3382. *)
Definition new_map_field (b : builder) : option builder :=
  let b := pop_leftover_items b in
  match last b with
  | Some (AtMap first) =>
      Some (push_indentation (push_str (if first then [10%N] else str "," ++ [10%N])
        (set_last (AtMap false) b)))
  | _ => None
  end.

(** [new_clause_guard], 3384-3397. *)
Definition new_clause_guard (b : builder) : option builder :=
  let b := pop_leftover_items b in
  match last b with
  | Some (AtCaseClause (Guards true)) => Some (set_last (AtCaseClause (Guards false)) b)
  | _ => None
  end.

(** [new_record_field], 3642-3658. *)
Definition new_record_field (b : builder) : option builder :=
  let b := pop_leftover_items b in
  match last b with
  | Some (AtRecordAttribute first) =>
      Some (push_indentation (push_str [10%N]
        (separator (str ",") first (set_last (AtRecordAttribute false) b))))
  | _ => None
  end.

(** [do_not_wrap_if_segment_value_or_size], 3414-3431. *)
Definition do_not_wrap_if_segment_value_or_size (b : builder) : builder :=
  let b := pop_leftover_items b in
  match last b with
  | Some (AtBitArraySegment (SegmentValue k) _ size_wrap) =>
      set_last (AtBitArraySegment (SegmentValue k) false size_wrap) b
  | Some (AtBitArraySegment SegmentSize value_wrap _) =>
      set_last (AtBitArraySegment SegmentSize value_wrap false) b
  | _ => b
  end.

(** [escape_string_content], 3287-3331. *)
Definition escape_string_content (content : text) (b : builder) : option text :=
  match last b with
  | None => None
  | Some (AtFunctionSpec | AtTypeSpec _ | AtFunctionType _ _ | AtNamedType _ | AtUnionType _
         | AtRecordAttribute _ | AtTupleType _) => None
  | Some _ => Some (escape_literal_string_content content)
  end.

(** [do_print_string_content], 3435-3462. *)
Definition do_print_string_content (content : text) (b : builder) : option builder :=
  match escape_string_content content b with
  | None => None
  | Some content =>
      match last b with
      | Some (AtBitArraySegment SegmentSize _ _) =>
          Some (push_str [34%N] (push_str content (push_str [34%N] b)))
      | _ => Some (push_str [34%N] (push_str content (push_str [126; 34]%N b)))
      end
  end.

Definition new_of_kind (k : kind) : builder -> option builder :=
  match k with Pattern => new_pattern | Expression => new_expression end.

(** [cons_list_of_kind], 3464-3491. *)
Definition cons_list_of_kind (k : kind) (b : builder) : option builder :=
  let b := pop_leftover_items b in
  let new_list :=
    option_map (fun b => push (AtList k First) (push_str (str "[") b)) (new_of_kind k b) in
  match last b with
  | Some (AtList k' Rest) =>
      if kind_eqb k' k then Some (push_str (str ", ") (set_last (AtList k' First) b)) else new_list
  | _ => new_list
  end.

(** [empty_list_of_kind], 3493-3517. *)
Definition empty_list_of_kind (k : kind) (b : builder) : option builder :=
  let b := pop_leftover_items b in
  let new_list := option_map (push_str (str "[]")) (new_of_kind k b) in
  match last b with
  | Some (AtList k' Rest) =>
      if kind_eqb k' k then Some (pop (push_str (str "]") b)) else new_list
  | _ => new_list
  end.

(** ** The methods *)

Inductive call :=
| export_attribute (exported : list (text * N))
| export_type_attribute (exported : list (text * N))
| doc_attribute (content : doc)
| moduledoc_attribute (content : doc)
| compile_attribute (arguments : list text)
| file_attribute (file : text) (line : N)
| start_record_attribute (name : text)
| end_record_attribute
| record_field
| start_function_spec (name : text) (arity : N)
| end_function_spec
| start_type_spec (opaque : bool) (name : text) (type_variables : list text)
| end_type_spec
| start_function_type
| end_function_type_arguments
| end_function_type
| start_named_type (name : text)
| end_named_type
| start_remote_named_type (module name : text)
| end_remote_named_type
| start_tuple_type
| end_tuple_type
| start_union_type
| end_union_type
| type_variable (name : text)
| literal_atom_type (name : text)
| start_function (name : text) (arity : N) (arguments : list text)
| start_anonymous_function (arguments : list text)
| end_function
| start_block
| end_block
| start_remote_call (module function : text)
| start_call
| end_called_expression
| end_call
| start_tuple
| end_tuple
| start_map
| end_map
| map_field
| start_bit_array
| end_bit_array
| bit_array_segment
| bit_array_segment_default_size
| bit_array_segment_specifiers (specifiers : list specifier)
| cons_list
| empty_list
| start_case
| end_case_subject
| end_case
| start_case_clause
| end_clause_pattern
| start_clause_guard
| end_clause_guard
| end_clause_guards
| end_clause_body
| variable (name : text)
| unary_operator (operator : text)
| binary_operator (operator : text)
| function_reference (module : option text) (name : text) (arity : N)
| match_operator
| match_pattern
| variable_pattern (name : text)
| discard_pattern
| int_pattern (number : Z)
| float_pattern (number : float)
| string_pattern (content : text)
| atom_pattern (name : text)
| start_tuple_pattern
| end_tuple_pattern
| start_bit_array_pattern
| end_bit_array_pattern
| cons_list_pattern
| empty_list_pattern
| string_ (content : text)
| int (number : Z)
| float_ (number : float)
| atom (name : text).

Local Notation "'let*' b ':=' e 'in' f" := (match e with None => None | Some b => f end)
  (at level 200, b pattern, right associativity).

(** Items written one after the other with [", "] between them: the loops at 1863-1874,
    1891-1902, 1926-1935, 1994-2002, 2117-2125, 2139-2147. *)
Fixpoint push_separated_from (first : bool) (items : list text) (b : builder) : builder :=
  match items with
  | [] => b
  | item :: items => push_separated_from false items (push_str item (separator (str ", ") first b))
  end.
Definition push_separated : list text -> builder -> builder := push_separated_from true.
Definition exported_item (e : text * N) : text := quote_atom_name (fst e) ++ str "/" ++ decimal (snd e).

(** 2183-2189 and 2209-2215 *)
Definition mark_called_call (b : builder) : builder :=
  match last b with
  | Some (AtFunctionCall FunctionToBeCalled _) => set_last (AtFunctionCall FunctionToBeCalled true) b
  | _ => b
  end.

(** The comparison of 2348-2356: a unit comes after everything else.  Only one unit is ever
    passed, so the stable sort puts the others first, in their order. *)
Definition is_unit (s : specifier) : bool := match s with Unit _ => true | _ => false end.
Definition sort_specifiers (l : list specifier) : list specifier :=
  filter (fun s => negb (is_unit s)) l ++ filter is_unit l.

(** 2359-2373 *)
Definition specifier_string (s : specifier) : text :=
  match s with
  | Utf8 => str "utf8" | Utf16 => str "utf16" | Utf32 => str "utf32" | Integer => str "integer"
  | Floating => str "float" | Binary => str "binary" | Bitstring => str "bitstring"
  | Signed => str "signed" | Unsigned => str "unsigned" | Little => str "little" | Big => str "big"
  | Native => str "native" | Unit n => str "unit:" ++ decimal n
  end.

(** 2374-2382 *)
Fixpoint push_specifiers (first : bool) (l : list specifier) (b : builder) : builder :=
  match l with
  | [] => b
  | s :: l => push_specifiers false l
                (push_str (specifier_string s) (push_str (if first then str "/" else str "-") b))
  end.

(** [impl ErlangBuilder for ErlangSourceBuilder], 1807-2621; lines of each method beside it. *)
Definition step (c : call) (b : builder) : option builder :=
  match c with
  (* 1851-1877 *)
  | export_attribute exported =>
      match exported with
      | [] => Some b
      | _ :: _ =>
          let* b := new_top_level_form b in
          Some (push_str (str "])." ++ [10%N])
            (push_separated (map exported_item exported) (push_str (str "-export([") b)))
      end
  (* 1879-1905 *)
  | export_type_attribute exported =>
      match exported with
      | [] => Some b
      | _ :: _ =>
          let* b := new_top_level_form b in
          Some (push_str (str "])." ++ [10%N])
            (push_separated (map exported_item exported) (push_str (str "-export_type([") b)))
      end
  (* 1907-1912 *)
  | doc_attribute content =>
      let* b := new_top_level_form b in
      Some (push_str (str ").") (doc_content content (push_str ([10%N] ++ str "-doc(") b)))
  (* 1914-1919 *)
  | moduledoc_attribute content =>
      let* b := new_top_level_form b in
      Some (push_str (str ")." ++ [10%N]) (doc_content content (push_str (str "-moduledoc(") b)))
  (* 1921-1937 *)
  | compile_attribute arguments =>
      let* b := new_top_level_form b in
      Some (push_str (str "])." ++ [10%N])
        (push_separated arguments (push_str (str "-compile([") b)))
  (* 1939-1946 *)
  | file_attribute file line =>
      let* b := new_top_level_form b in
      Some (push_str (str ").") (push_str (decimal line) (push_str ([34%N] ++ str ", ")
        (push_str file (push_str ([10%N] ++ str "-file(" ++ [34%N]) b)))))
  (* 1948-1956 *)
  | start_record_attribute name =>
      let* b := new_top_level_form b in
      Some (push (AtRecordAttribute true) (indent
        (push_str (str ", {") (push_str (quote_atom_name name) (push_str (str "-record(") b)))))
  (* 1958-1960 *)
  | end_record_attribute => close_currently_open_item b
  (* 1962-1968 *)
  | record_field => let* b := new_record_field b in Some (push (AtRecordField FieldName) b)
  (* 1970-1976 *)
  | start_function_spec name _ =>
      let* b := new_top_level_form b in
      Some (push AtFunctionSpec (push_str (quote_atom_name name) (push_str ([10%N] ++ str "-spec ") b)))
  (* 1978-1980 *)
  | end_function_spec => close_currently_open_item b
  (* 1982-2008 *)
  | start_type_spec opaque name type_variables =>
      let* b := new_top_level_form b in
      let b := push_str (if opaque then str "-opaque " else str "-type ") (push_str [10%N] b) in
      let b := push_str (str "(") (push_str (quote_atom_name name) b) in
      Some (push (AtTypeSpec TypeDefinition) (push_str (str ") :: ") (push_separated type_variables b)))
  (* 2010-2014 *)
  | end_type_spec => Some b
  (* 2016-2033 *)
  | start_function_type =>
      let* b := new_type b in
      match last b with
      | Some AtFunctionSpec =>
          Some (push (AtFunctionType (TypeArguments true) false) (push_str (str "(") b))
      | _ => Some (push (AtFunctionType (TypeArguments true) true) (push_str (str "fun((") b))
      end
  (* 2035-2040 *)
  | end_function_type_arguments | end_function_type => close_currently_open_item b
  (* 2046-2052 *)
  | start_named_type name =>
      let* b := new_type b in
      Some (push_str (str "(") (push_str (quote_atom_name name) (push (AtNamedType true) b)))
  (* 2054-2056 *)
  | end_named_type => close_currently_open_item b
  (* 2058-2066 *)
  | start_remote_named_type module name =>
      let* b := new_type b in
      Some (push_str (str "(") (push_str (quote_atom_name name)
        (push_str (str ":") (push_str (quote_atom_name module) (push (AtNamedType true) b)))))
  (* 2068-2070 *)
  | end_remote_named_type => close_currently_open_item b
  (* 2072-2077 *)
  | start_tuple_type =>
      let* b := new_type b in Some (push_str (str "{") (push (AtTupleType true) b))
  (* 2079-2081 *)
  | end_tuple_type => close_currently_open_item b
  (* 2083-2087 *)
  | start_union_type => let* b := new_type b in Some (push (AtUnionType true) b)
  (* 2089-2091 *)
  | end_union_type => close_currently_open_item b
  (* 2093-2096 *)
  | type_variable name => let* b := new_type b in Some (push_str name b)
  (* 2098-2101 *)
  | literal_atom_type name => let* b := new_type b in Some (push_str (quote_atom_name name) b)
  (* 2103-2129 *)
  | start_function name _ arguments =>
      let* b := new_top_level_form b in
      let b := push_str (str "(") (push_str (quote_atom_name name) (push_str [10%N] b)) in
      Some (push (AtFunctionStatement true) (indent (push_str (str ") ->") (push_separated arguments b))))
  (* 2131-2153 *)
  | start_anonymous_function arguments =>
      let* b := new_expression b in
      Some (push (AtAnonymousFunctionStatement true) (indent (push_str (str ") ->")
        (push_separated arguments (push_str (str "fun(") b)))))
  (* 2155-2157 *)
  | end_function => close_currently_open_item b
  (* 2159-2165 *)
  | start_block =>
      let* b := new_expression b in
      Some (push (AtBlock true) (indent (push_str (str "begin") b)))
  (* 2167-2169 *)
  | end_block => close_currently_open_item b
  (* 2171-2200 *)
  | start_remote_call module function =>
      let* b := new_expression (mark_called_call (pop_leftover_items b)) in
      Some (push (AtFunctionCall (CallArguments true) false)
        (push_str (quote_atom_name function) (push_str (str ":") (push_str (quote_atom_name module) b))))
  (* 2202-2223 *)
  | start_call =>
      let* b := new_expression (mark_called_call (pop_leftover_items b)) in
      Some (push (AtFunctionCall FunctionToBeCalled false) b)
  (* 2225-2238 *)
  | end_called_expression =>
      let b := pop_leftover_items b in
      match last b with
      | Some (AtFunctionCall (CallArguments true) _) => Some b
      | _ => None
      end
  (* 2240-2242 *)
  | end_call => close_currently_open_item b
  (* 2244-2249 *)
  | start_tuple => let* b := new_expression b in Some (push (AtTuple true) (push_str (str "{") b))
  (* 2251-2253 *)
  | end_tuple => close_currently_open_item b
  (* 2255-2261 *)
  | start_map =>
      let* b := new_expression b in Some (push (AtMap true) (indent (push_str (str "#{") b)))
  (* 2263-2265 *)
  | end_map => close_currently_open_item b
  (* 2267-2272 *)
  | map_field => let* b := new_map_field b in Some (push (AtMapField MapKey) b)
  (* 2274-2282 *)
  | start_bit_array =>
      let* b := new_expression (do_not_wrap_if_segment_value_or_size b) in
      Some (push (AtBitArray Expression true) (push_str (str "<<") b))
  (* 2284-2286 *)
  | end_bit_array => close_currently_open_item b
  (* 2288-2300 *)
  | bit_array_segment =>
      let* (k, b) := new_bit_array_segment b in
      Some (push (AtBitArraySegment (SegmentValue k) true true) b)
  (* 2302-2324 *)
  | bit_array_segment_default_size =>
      let b := pop_leftover_items b in
      match last b with
      | Some (AtBitArraySegment SegmentSize value_wrap _) =>
          let b := if value_wrap then push_str (str ")") b else b in
          Some (set_last (AtBitArraySegment SegmentSpecifiers false false) b)
      | _ => None
      end
  (* 2326-2385 *)
  | bit_array_segment_specifiers specifiers =>
      let b := pop_leftover_items b in
      match last b with
      | Some (AtBitArraySegment SegmentSpecifiers value_wrap size_wrap) =>
          let b := if value_wrap || size_wrap then push_str (str ")") b else b in
          Some (pop (push_specifiers true (sort_specifiers specifiers) b))
      | _ => None
      end
  (* 2387-2389 *)
  | cons_list => cons_list_of_kind Expression b
  (* 2391-2393 *)
  | empty_list => empty_list_of_kind Expression b
  (* 2395-2401 *)
  | start_case => let* b := new_expression b in Some (push (AtCase Subject) (push_str (str "case ") b))
  (* 2403-2415 *)
  | end_case_subject =>
      let b := pop_leftover_items b in
      match last b with Some (AtCase (Branches true)) => Some b | _ => None end
  (* 2417-2419 *)
  | end_case => close_currently_open_item b
  (* 2421-2426 *)
  | start_case_clause =>
      let* b := new_case_clause b in Some (push (AtCaseClause ClausePattern) b)
  (* 2428-2433 *)
  | end_clause_pattern =>
      let* b := close_currently_open_item b in Some (push (AtCaseClause (Guards true)) b)
  (* 2435-2438 *)
  | start_clause_guard => let* b := new_clause_guard b in Some (push AtClauseGuard b)
  (* 2440-2442 *)
  | end_clause_guard => close_currently_open_item b
  (* 2444-2450 *)
  | end_clause_guards =>
      let* b := close_currently_open_item b in Some (push (AtCaseClause (Body true)) (indent b))
  (* 2452-2454 *)
  | end_clause_body => close_currently_open_item b
  (* 2456-2460 *)
  | variable name =>
      let* b := new_expression (do_not_wrap_if_segment_value_or_size b) in Some (push_str name b)
  (* 2462-2468 *)
  | unary_operator operator =>
      let* b := new_expression b in
      Some (push AtUnaryOperator (push_str (str " ") (push_str operator b)))
  (* 2470-2495 *)
  | binary_operator operator =>
      let b := pop_leftover_items b in
      let needs_wrapping :=
        match last b with Some (AtBinaryOperator _ _ _ | AtUnaryOperator) => true | _ => false end in
      let* b := new_expression b in
      Some (push (AtBinaryOperator OperatorLeft needs_wrapping operator)
        (if needs_wrapping then push_str (str "(") b else b))
  (* 2497-2513 *)
  | function_reference module name arity =>
      let* b := new_expression b in
      let b := push_str (str "fun ") b in
      let b := match module with
               | Some module => push_str (str ":") (push_str (quote_atom_name module) b)
               | None => b
               end in
      Some (push_str (decimal arity) (push_str (str "/") (push_str (quote_atom_name name) b)))
  (* 2515-2521 *)
  | match_operator => let* b := new_expression b in Some (push (AtMatchOperator MatchOnPattern) b)
  (* 2523-2529 *)
  | match_pattern => let* b := new_pattern b in Some (push (AtMatchPattern PatternLeft) b)
  (* 2531-2535 *)
  | variable_pattern name =>
      let* b := new_pattern (do_not_wrap_if_segment_value_or_size b) in Some (push_str name b)
  (* 2537-2541 *)
  | discard_pattern =>
      let* b := new_pattern (do_not_wrap_if_segment_value_or_size b) in Some (push_str (str "_") b)
  (* 2543-2547 *)
  | int_pattern number =>
      let* b := new_pattern (do_not_wrap_if_segment_value_or_size b) in
      Some (push_str (int_to_string number) b)
  (* 2549-2554 *)
  | float_pattern number =>
      let* b := new_pattern (do_not_wrap_if_segment_value_or_size b) in
      Some (push_str (format_float number) b)
  (* 2556-2560 *)
  | string_pattern content =>
      let* b := new_pattern (do_not_wrap_if_segment_value_or_size b) in
      do_print_string_content content b
  (* 2562-2565 *)
  | atom_pattern name => let* b := new_pattern b in Some (push_str (quote_atom_name name) b)
  (* 2567-2572 *)
  | start_tuple_pattern =>
      let* b := new_pattern b in Some (push (AtTuplePattern true) (push_str (str "{") b))
  (* 2574-2576 *)
  | end_tuple_pattern => close_currently_open_item b
  (* 2578-2585 *)
  | start_bit_array_pattern =>
      let* b := new_pattern b in Some (push (AtBitArray Pattern true) (push_str (str "<<") b))
  (* 2587-2589 *)
  | end_bit_array_pattern => close_currently_open_item b
  (* 2591-2593 *)
  | cons_list_pattern => cons_list_of_kind Pattern b
  (* 2595-2597 *)
  | empty_list_pattern => empty_list_of_kind Pattern b
  (* 2599-2603 *)
  | string_ content =>
      let* b := new_expression (do_not_wrap_if_segment_value_or_size b) in
      do_print_string_content content b
  (* 2605-2609 *)
  | int number =>
      let* b := new_expression (do_not_wrap_if_segment_value_or_size b) in
      Some (push_str (int_to_string number) b)
  (* 2611-2615 *)
  | float_ number =>
      let* b := new_expression (do_not_wrap_if_segment_value_or_size b) in
      Some (push_str (format_float number) b)
  (* 2617-2621 *)
  | atom name => let* b := new_expression b in Some (push_str (quote_atom_name name) b)
  end.

(** [new], 1833-1843. *)
Definition new (module_name : option text) : builder :=
  Builder match module_name with
          | Some name => str "-module(" ++ quote_atom_name name ++ str ")." ++ [10%N]
          | None => []
          end [] 0.

(** [into_output], 1845-1849. *)
Definition into_output (b : builder) : option text :=
  option_map (fun b => code b ++ [10%N]) (close_currently_open_item b).

Fixpoint run (cs : list call) (b : builder) : option builder :=
  match cs with
  | [] => Some b
  | c :: cs => let* b := step c b in run cs b
  end.

(** A builder made, called and turned into text. *)
Definition build (module_name : option text) (cs : list call) : option text :=
  let* b := run cs (new module_name) in into_output b.
