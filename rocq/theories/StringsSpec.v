(** Escapes, encodings and names, independently of the code. *)
From Coq Require Import NArith Bool String List.
From Verif Require Import Text.
Import ListNotations.
Open Scope N_scope.

(** ** String literals *)

(** The position of a character in a string. *)
Fixpoint position (c : N) (s : text) : option N :=
  match s with
  | [] => None
  | d :: s => if c =? d then Some 0 else option_map N.succ (position c s)
  end.
Definition nibble (c : N) : option N :=
  match position c (str "0123456789abcdef") with
  | Some n => Some n
  | None => position c (str "0123456789ABCDEF")
  end.
(** [denotes digits n]: positional notation to base 16. *)
Inductive denotes : text -> N -> Prop :=
| one_digit c d : nibble c = Some d -> denotes [c] d
| more_digits c d s n : nibble c = Some d -> denotes s n ->
    denotes (c :: s) (d * 16 ^ N.of_nat (length s) + n).

Definition scalar_value (n : N) : Prop := n < 0xD800 \/ (0xE000 <= n /\ n <= 0x10FFFF).

(** What a piece of the inside of a string literal stands for. *)
Inductive piece : text -> N -> Prop :=
| plain c : c <> 92 -> piece [c] c
| escaped_newline : piece (str "\n") 10
| escaped_return : piece (str "\r") 13
| escaped_form_feed : piece (str "\f") 12
| escaped_tab : piece (str "\t") 9
| escaped_quote : piece [92; 34] 34
| escaped_backslash : piece (str "\\") 92
| escaped_code_point digits n : denotes digits n -> scalar_value n ->
    piece (str "\u{" ++ digits ++ str "}") n.
Inductive literal : text -> text -> Prop :=
| literal_end : literal [] []
| literal_piece p c s m : piece p c -> literal s m -> literal (p ++ s) (c :: m).

(** ** Decoders, from the Unicode standard (chapter 3.9) *)
Fixpoint join_surrogates (units : list N) : option text :=
  match units with
  | [] => Some []
  | u :: units =>
      if (0xD800 <=? u) && (u <? 0xDC00) then
        match units with
        | l :: units =>
            if (0xDC00 <=? l) && (l <? 0xE000)
            then option_map (cons ((u - 0xD800) * 1024 + (l - 0xDC00) + 0x10000)) (join_surrogates units)
            else None
        | [] => None
        end
      else if (0xDC00 <=? u) && (u <? 0xE000) then None
      else option_map (cons u) (join_surrogates units)
  end.
Fixpoint units_be (bytes : list N) : option (list N) :=
  match bytes with
  | [] => Some []
  | [_] => None
  | a :: b :: bytes => option_map (cons (a * 256 + b)) (units_be bytes)
  end.
Fixpoint units_le (bytes : list N) : option (list N) :=
  match bytes with
  | [] => Some []
  | [_] => None
  | a :: b :: bytes => option_map (cons (b * 256 + a)) (units_le bytes)
  end.
Fixpoint words_be (bytes : list N) : option (list N) :=
  match bytes with
  | [] => Some []
  | a :: b :: c :: d :: bytes => option_map (cons (((a * 256 + b) * 256 + c) * 256 + d)) (words_be bytes)
  | _ => None
  end.
Fixpoint words_le (bytes : list N) : option (list N) :=
  match bytes with
  | [] => Some []
  | a :: b :: c :: d :: bytes => option_map (cons (((d * 256 + c) * 256 + b) * 256 + a)) (words_le bytes)
  | _ => None
  end.
Definition is_continuation (b : N) : bool := (0x80 <=? b) && (b <? 0xC0).
Fixpoint decode_utf8 (bytes : list N) : option text :=
  match bytes with
  | [] => Some []
  | a :: r =>
      if a <? 0x80 then option_map (cons a) (decode_utf8 r)
      else if a <? 0xC0 then None
      else
        match r with
        | b :: r =>
            if negb (is_continuation b) then None
            else if a <? 0xE0 then option_map (cons ((a - 0xC0) * 64 + (b - 0x80))) (decode_utf8 r)
            else
              match r with
              | c :: r =>
                  if negb (is_continuation c) then None
                  else if a <? 0xF0
                  then option_map (cons (((a - 0xE0) * 64 + (b - 0x80)) * 64 + (c - 0x80))) (decode_utf8 r)
                  else
                    match r with
                    | d :: r =>
                        if negb (is_continuation d) then None
                        else option_map (cons ((((a - 0xF0) * 64 + (b - 0x80)) * 64 + (c - 0x80)) * 64 + (d - 0x80)))
                               (decode_utf8 r)
                    | [] => None
                    end
              | [] => None
              end
        | [] => None
        end
  end.

(** ** Names *)

(** What the lexer lets through as an upper-case name, a lower-case name, a discard. *)
Definition name_tail (c : N) : bool := is_alphanumeric c || (c =? 95).
Definition lexed_upname (s : text) : Prop :=
  exists c r, s = c :: r /\ is_upper c = true /\ Forall (fun c => name_tail c = true) r.
Definition lexed_name (s : text) : Prop :=
  exists c r, s = c :: r /\ is_lower c = true /\ Forall (fun c => name_tail c = true) r.
Definition lexed_discard (s : text) : Prop :=
  exists r, s = 95 :: r /\ Forall (fun c => name_tail c = true) r.
Definition double_underscore (s : text) : Prop := exists a b, s = (a ++ [95; 95] ++ b)%list.

(** The words of a type name: each a capital, then small letters and digits. *)
Definition camel (ws : list (N * text)) : text := flat_map (fun w => fst w :: snd w) ws.
Definition legal_words (ws : list (N * text)) : Prop :=
  Forall (fun w => is_upper (fst w) = true /\ Forall (fun c => is_lower c = true \/ is_digit c = true) (snd w)) ws.
(** The words in small letters, with underscores between them. *)
Fixpoint snake (ws : list (N * text)) : text :=
  match ws with
  | [] => []
  | [w] => fst w + 32 :: snd w
  | w :: ws => fst w + 32 :: snd w ++ 95 :: snake ws
  end.
