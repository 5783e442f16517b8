(** Model of compiler-core/src/strings.rs and of the naming rules of
    compiler-core/src/analyse/name.rs. *)
From Coq Require Import NArith Bool List.
From Verif Require Import Text.
Import ListNotations.
Open Scope N_scope.

(** ** Escapes *)

(** [char::is_ascii_hexdigit] *)
Definition is_hexdigit (c : N) : bool :=
  is_digit c || ((65 <=? c) && (c <=? 70)) || ((97 <=? c) && (c <=? 102)).

(** [char::to_digit(16)] of a hexadecimal digit. *)
Definition hex_digit_value (c : N) : N :=
  if c <=? 57 then c - 48 else if c <=? 70 then c - 55 else c - 87.

(** [u32::from_str_radix(_, 16)] of a non-empty string of hexadecimal digits: [None]
    on overflow. *)
Definition hex_value (s : text) : N := fold_left (fun acc c => 16 * acc + hex_digit_value c) s 0.
Definition u32_from_hex (s : text) : option N :=
  if hex_value s <? 2 ^ 32 then Some (hex_value s) else None.

(** [char::from_u32] *)
Definition char_from_u32 (n : N) : option N :=
  if (n <? 0xD800) || ((0xE000 <=? n) && (n <=? 0x10FFFF)) then Some n else None.

(** The character constants of the function below. *)
Definition backslash : N := 92.
Definition brace_open : N := 123.
Definition brace_close : N := 125.

(** [convert_string_escape_chars], compiler-core/src/strings.rs 11-71.  The iterator
    is the list of characters left.  Every iteration consumes at least one character,
    so [convert_string_escape_chars] gives as much fuel as there are characters. *)
Fixpoint convert_escapes (fuel : nat) (s : text) : text :=
  match fuel with
  | O => []
  | S fuel =>
      match s with
      | [] => []
      | c :: s =>
          if negb (c =? backslash) then c :: convert_escapes fuel s
          else
            match s with
            | [] => []
            | e :: s =>
                if e =? 117 (* u *) then
                  match s with
                  | b :: s' =>
                      if b =? brace_open then
                        let '(hex, rest) := span_while is_hexdigit s' in
                        let invalid := (117 :: brace_open :: hex ++ convert_escapes fuel rest)%list in
                        match hex, rest with
                        | _ :: _, b :: rest' =>
                            if b =? brace_close then
                              match u32_from_hex hex with
                              | Some n =>
                                  match char_from_u32 n with
                                  | Some p => p :: convert_escapes fuel rest'
                                  | None => invalid
                                  end
                              | None => invalid
                              end
                            else invalid
                        | _, _ => invalid
                        end
                      else 117 :: convert_escapes fuel s
                  | [] => 117 :: convert_escapes fuel s
                  end
                else if e =? 110 (* n *) then 10 :: convert_escapes fuel s
                else if e =? 114 (* r *) then 13 :: convert_escapes fuel s
                else if e =? 102 (* f *) then 12 :: convert_escapes fuel s
                else if e =? 116 (* t *) then 9 :: convert_escapes fuel s
                else e :: convert_escapes fuel s
            end
      end
  end.
Definition convert_string_escape_chars (s : text) : text := convert_escapes (length s) s.

(** ** Case conversion *)

(** [char::to_ascii_lowercase], [char::to_ascii_uppercase] *)
Definition to_ascii_lowercase (c : N) : N := if is_upper c then c + 32 else c.
Definition to_ascii_uppercase (c : N) : N := if is_lower c then c - 32 else c.
Definition underscore : N := 95.
Definition space : N := 32.

(** [to_snake_case], compiler-core/src/strings.rs 73-101.  [empty]: nothing has been
    pushed yet; [boundary] is the code's [is_word_boundary].  [char::is_uppercase] is
    taken to be ASCII's, which is what it is on the names the lexer lets through. *)
Fixpoint snake_case_loop (empty boundary : bool) (s : text) : text :=
  match s with
  | [] => []
  | c :: s =>
      if (c =? underscore) || (c =? space) then snake_case_loop empty true s
      else
        let boundary := boundary || is_upper c in
        if boundary then
          if empty then to_ascii_lowercase c :: snake_case_loop false false s
          else underscore :: to_ascii_lowercase c :: snake_case_loop false false s
        else to_ascii_lowercase c :: snake_case_loop false boundary s
  end.
Definition to_snake_case (s : text) : text := snake_case_loop true true s.

(** [to_upper_camel_case], compiler-core/src/strings.rs 103-118. *)
Fixpoint to_upper_camel_case (s : text) : text :=
  match s with
  | [] => []
  | c :: s =>
      if c =? underscore then
        match s with
        | [] => []
        | next :: s => to_ascii_uppercase next :: to_upper_camel_case s
        end
      else c :: to_upper_camel_case s
  end.

(** ** Encodings *)
Inductive endianness := Big | Little.

(** [u16::to_be_bytes] and [u16::to_le_bytes], [u32::to_be_bytes] and
    [u32::to_le_bytes]. *)
Definition u16_bytes (e : endianness) (n : N) : list N :=
  match e with Big => [n / 256; n mod 256] | Little => [n mod 256; n / 256] end.
Definition u32_bytes (e : endianness) (n : N) : list N :=
  let bytes := [n / 2 ^ 24; (n / 2 ^ 16) mod 256; (n / 2 ^ 8) mod 256; n mod 256] in
  match e with Big => bytes | Little => rev bytes end.

(** [char::encode_utf16] *)
Definition encode_utf16 (c : N) : list N :=
  if c <? 0x10000 then [c]
  else [0xD800 + (c - 0x10000) / 1024; 0xDC00 + (c - 0x10000) mod 1024].

(** [string_to_utf16_bytes], compiler-core/src/strings.rs 121-142. *)
Definition string_to_utf16_bytes (s : text) (e : endianness) : list N :=
  flat_map (fun c => flat_map (u16_bytes e) (encode_utf16 c)) s.

(** [string_to_utf32_bytes], compiler-core/src/strings.rs 145-157. *)
Definition string_to_utf32_bytes (s : text) (e : endianness) : list N := flat_map (u32_bytes e) s.

(** [length_utf16], [length_utf32], compiler-core/src/strings.rs 160-173. *)
Definition length_utf16 (s : text) : nat :=
  list_sum (map (fun c => if c <? 0x10000 then 1 else 2)%nat s).
Definition length_utf32 (s : text) : nat := length s.

(** [str::as_bytes]: UTF-8, as used for utf8 segments (exhaustiveness.rs 3869). *)
Definition encode_utf8 (c : N) : list N :=
  if c <? 0x80 then [c]
  else if c <? 0x800 then [0xC0 + c / 64; 0x80 + c mod 64]
  else if c <? 0x10000 then [0xE0 + c / 4096; 0x80 + (c / 64) mod 64; 0x80 + c mod 64]
  else [0xF0 + c / 262144; 0x80 + (c / 4096) mod 64; 0x80 + (c / 64) mod 64; 0x80 + c mod 64].
Definition as_bytes (s : text) : list N := flat_map encode_utf8 s.

(** ** Naming rules, compiler-core/src/analyse/name.rs *)

(** The regular expressions of lines 20-43. *)
Definition name_character (c : N) : bool := is_lower c || is_digit c || (c =? underscore).
Definition valid_plain_name (s : text) : bool :=
  match s with c :: s => is_lower c && forallb name_character s | [] => false end.
Definition valid_name (s : text) : bool :=
  valid_plain_name s
  || match s with c :: s => (c =? underscore) && valid_plain_name s | [] => false end.
Definition valid_discard_name (s : text) : bool :=
  match s with c :: s => (c =? underscore) && forallb name_character s | [] => false end.
Definition valid_upname (s : text) : bool :=
  match s with c :: s => is_upper c && forallb is_alphanumeric s | [] => false end.

(** [Named], compiler-core/src/analyse.rs: the three families the rules distinguish. *)
Inductive named := UpperCamel | Snake | Discard.

(** [check_name_case], lines 45-65, as a test; [correct_name_case], lines 67-78. *)
Definition check_name_case (name : text) (kind : named) : bool :=
  match kind with
  | UpperCamel => valid_upname name
  | Snake => valid_name name
  | Discard => valid_discard_name name
  end.
Definition correct_name_case (name : text) (kind : named) : text :=
  match kind with
  | UpperCamel => to_upper_camel_case name
  | Snake => to_snake_case name
  | Discard => underscore :: to_snake_case name
  end.
