(** Model of source spans and line numbers: /repo/src-span/src/lib.rs, and the
    span/range conversions of /repo/language-server/src/lib.rs:101-115.

    A source text is a list of code points; byte offsets are [nat] ([u32] in the
    code, without overflow: sources shorter than 2^32 bytes). *)
From Coq Require Import NArith List Bool Arith.
Import ListNotations.

Definition char := N.

(** Rust's [char::len_utf8] and [char::len_utf16]. *)
Definition len_utf8 (c : char) : nat :=
  if (c <? 0x80)%N then 1 else if (c <? 0x800)%N then 2 else if (c <? 0x10000)%N then 3 else 4.
Definition len_utf16 (c : char) : nat := if (c <? 0x10000)%N then 1 else 2.
Definition newline : char := 10%N.

(** lib.rs:23-66 *)
Record span := Span { start : nat; end_ : nat }.
Definition contains (s : span) (byte_index : nat) : bool :=
  (start s <=? byte_index) && (byte_index <=? end_ s).
Definition contains_span (s t : span) : bool := contains s (start t) && contains s (end_ t).
Definition merge (s t : span) : span := Span (min (start s) (start t)) (max (end_ s) (end_ t)).

(** lib.rs:79-99 [LineNumbers]; the hash map is an association list. *)
Record character := Character { length_utf8 : nat; length_utf16 : nat }.
Record line_numbers := LineNumbers {
  line_starts : list nat;
  length_ : nat;
  mapping : list (nat * character)
}.

(** [src.len()] *)
Definition byte_length (src : list char) : nat := list_sum (map len_utf8 src).

(** [src.match_indices('\n').map(|(i, _)| i + 1)], offsets counted from [i]. *)
Fixpoint starts_after_newlines (i : nat) (src : list char) : list nat :=
  match src with
  | [] => []
  | c :: src =>
      if (c =? newline)%N then (i + 1) :: starts_after_newlines (i + len_utf8 c) src
      else starts_after_newlines (i + len_utf8 c) src
  end.

(** lib.rs:121-138 [LineNumbers::mapping] *)
Fixpoint mapping_from (i : nat) (src : list char) : list (nat * character) :=
  match src with
  | [] => []
  | c :: src =>
      if Nat.eqb (len_utf8 c) 1 then mapping_from (i + len_utf8 c) src
      else (i, Character (len_utf8 c) (len_utf16 c)) :: mapping_from (i + len_utf8 c) src
  end.

(** [HashMap::get] *)
Fixpoint map_get (m : list (nat * character)) (k : nat) : option character :=
  match m with
  | [] => None
  | (k', v) :: m => if Nat.eqb k k' then Some v else map_get m k
  end.

(** lib.rs:110-119 [LineNumbers::new] *)
Definition new (src : list char) : line_numbers :=
  LineNumbers (0 :: starts_after_newlines 0 src) (byte_length src) (mapping_from 0 src).

(** [slice::binary_search] on a strictly increasing slice: [inl i] (Ok) if
    element [i] equals [x], else [inr i] (Err) with the insertion point.  On such
    slices the std contract determines the result, so it is modelled by a linear
    search. *)
Fixpoint binary_search_from (i : nat) (l : list nat) (x : nat) : nat + nat :=
  match l with
  | [] => inr i
  | y :: l =>
      if Nat.eqb y x then inl i
      else if x <? y then inr i
      else binary_search_from (S i) l x
  end.
Definition binary_search (l : list nat) (x : nat) : nat + nat := binary_search_from 0 l x.

(** lib.rs:141-146.  [next_line - 1] cannot underflow: the first start is 0. *)
Definition line_number (n : line_numbers) (byte_index : nat) : nat :=
  match binary_search (line_starts n) byte_index with
  | inl i => i
  | inr next_line => next_line - 1
  end + 1.

Record line_column := LineColumn { line : nat; column : nat }.

(** [line_starts.get(line - 1).copied().unwrap_or_default()] *)
Definition line_start_of (n : line_numbers) (l : nat) : nat := nth (l - 1) (line_starts n) 0.

(** lib.rs:150-163 *)
Definition line_and_utf8_column_number (n : line_numbers) (byte_index : nat) : line_column :=
  let l := line_number n byte_index in
  LineColumn l (byte_index - line_start_of n l).

(** The body of both loops: advance over one character. lib.rs:183-189, 213-219 *)
Definition step (m : list (nat * character)) (u8_offset u16_offset : nat) : nat * nat :=
  match map_get m u8_offset with
  | Some c => (u8_offset + length_utf8 c, u16_offset + length_utf16 c)
  | None => (u8_offset + 1, u16_offset + 1)
  end.

(** lib.rs:178-190; [None] is out of fuel, excluded by the proofs. *)
Fixpoint utf16_loop (fuel : nat) (m : list (nat * character)) (byte_index u8 u16 : nat)
  : option nat :=
  if byte_index <=? u8 then Some u16 else
  match fuel with
  | 0 => None
  | S fuel => let '(u8, u16) := step m u8 u16 in utf16_loop fuel m byte_index u8 u16
  end.

(** lib.rs:167-196 *)
Definition line_and_utf16_column_number (n : line_numbers) (byte_index : nat)
  : option line_column :=
  let l := line_number n byte_index in
  match utf16_loop byte_index (mapping n) byte_index (line_start_of n l) 0 with
  | Some u16 => Some (LineColumn l (u16 + 1))
  | None => None
  end.

Record position := Position { pline : nat; character_ : nat }.

(** lib.rs:208-220 *)
Fixpoint byte_loop (fuel : nat) (m : list (nat * character)) (target u8 u16 : nat)
  : option nat :=
  if target <=? u16 then Some u8 else
  match fuel with
  | 0 => None
  | S fuel => let '(u8, u16) := step m u8 u16 in byte_loop fuel m target u8 u16
  end.

(** lib.rs:200-223 *)
Definition byte_index (n : line_numbers) (p : position) : option nat :=
  match nth_error (line_starts n) (pline p) with
  | None => Some (length_ n)
  | Some line_start => byte_loop (character_ p) (mapping n) (character_ p) line_start 0
  end.

(** lib.rs:227-232 *)
Definition spans_entire_line (n : line_numbers) (s : span) : bool :=
  existsb (fun line_start =>
    (line_start =? start s) && existsb (fun x => x =? end_ s + 1) (line_starts n))
    (line_starts n).

(** language-server/src/lib.rs:101-109 *)
Definition src_span_to_lsp_range (s : span) (n : line_numbers) : option (position * position) :=
  match line_and_utf16_column_number n (start s), line_and_utf16_column_number n (end_ s) with
  | Some a, Some b =>
      Some (Position (line a - 1) (column a - 1), Position (line b - 1) (column b - 1))
  | _, _ => None
  end.

(** language-server/src/lib.rs:111-115 *)
Definition lsp_range_to_src_span (r : position * position) (n : line_numbers) : option span :=
  match byte_index n (fst r), byte_index n (snd r) with
  | Some a, Some b => Some (Span a b)
  | _, _ => None
  end.
