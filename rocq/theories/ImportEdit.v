(** Model of how the language server adds an unqualified name to an import: /repo/language-server/src/edits.rs:92-175.

    Text is ASCII, so that bytes and characters are the same: so are imports, apart from comments in them.  [None] is a panic ([expect]). *)
From Coq Require Import String Arith NArith List Bool.
From Verif Require Import Text.
Import ListNotations.
Local Open Scope list_scope.
Local Open Scope nat_scope.
Local Notation "'let?' x ':=' a 'in' b" := (match a with Some x => b | None => None end) (at level 200, x name, a at level 100, b at level 200).

(** [char::is_whitespace], for ASCII. *)
Definition is_whitespace (c : N) : bool := (N.eqb c 32 || ((9 <=? c) && (c <=? 13)))%N.
(** [str::find] of a character. *)
Fixpoint find_char (c : N) (s : text) : option nat :=
  match s with [] => None | d :: s => if N.eqb d c then Some 0 else option_map S (find_char c s) end.
(** [str::find] of a text. *)
Fixpoint find_text (p s : text) : option nat :=
  if starts_with p s then Some 0 else match s with [] => None | _ :: s => option_map S (find_text p s) end.
(** [str::rfind] of characters. *)
Fixpoint rfind (f : N -> bool) (s : text) : option nat :=
  match s with
  | [] => None
  | c :: s => match rfind f s with Some i => Some (S i) | None => if f c then Some 0 else None end
  end.
(** [str::get] *)
Definition slice (s : text) (start end_ : nat) : option text :=
  if (start <=? end_) && (end_ <=? length s) then Some (firstn (end_ - start) (skipn start s)) else None.

(** edits.rs:155-175 [find_last_char_before_closing_brace], the loop: from the character before [pos] back. *)
Fixpoint last_char_before (start : nat) (code : text) (pos : nat) : option (nat * N) :=
  match pos with
  | O => None
  | S pos =>
      let? c := nth_error code pos in
      if is_whitespace c then last_char_before start code pos
      else if N.eqb c 123 then None
      else Some (start + pos, c)
  end.
Definition find_last_char_before_closing_brace (start : nat) (code : text) : option (nat * N) :=
  let? closing_brace_pos := rfind (N.eqb 125) code in
  last_char_before start code closing_brace_pos.
(** edits.rs:136-153 [insert_into_braced_import] *)
Definition insert_into_braced_import (name : text) (start : nat) (code : text) : option (nat * text) :=
  match find_last_char_before_closing_brace start code with
  | Some (pos, c) =>
      if N.eqb c 44 then Some (pos + 1, str " " ++ name) else Some (pos + 1, str ", " ++ name)
  | None =>
      let? pos := find_char 123 code in
      Some (start + pos + 1, name)
  end.
(** edits.rs:111-133 [insert_into_unbraced_import]; [aliased] is [import.as_name.is_some()]. *)
Definition insert_into_unbraced_import (name : text) (aliased : bool) (start end_ : nat) (code : text) : option (nat * text) :=
  if negb aliased then Some (end_, str ".{" ++ name ++ str "}")
  else
    let? as_pos := find_text (str " as ") code in
    let? pos := rfind (fun c => negb (is_whitespace c)) (firstn as_pos code) in
    Some (start + pos + 1, str ".{" ++ name ++ str "}").
(** edits.rs:92-108 [insert_unqualified_import]: where to insert, and what. *)
Definition insert_unqualified_import (aliased : bool) (start end_ : nat) (code name : text) : option (nat * text) :=
  let? import_code := slice code start end_ in
  if existsb (N.eqb 125) import_code then insert_into_braced_import name start import_code
  else insert_into_unbraced_import name aliased start end_ import_code.
