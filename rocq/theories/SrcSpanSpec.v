(** Independent vocabulary for source positions. *)
From Coq Require Import NArith List Bool Arith.
From Verif Require Import SrcSpan.
Import ListNotations.

(** How many line ends there are in a text. *)
Fixpoint newlines_in (src : list char) : nat :=
  match src with
  | [] => 0
  | c :: src => (if (c =? newline)%N then 1 else 0) + newlines_in src
  end.

(** [last_line src line]: [line] is what follows the last newline of [src] (all of
    it if there is none). *)
Definition last_line (src line : list char) : Prop :=
  ~ In newline line /\ (src = line \/ exists before, src = before ++ newline :: line).

(** Length in UTF-16 code units, as LSP counts. *)
Definition utf16_length (src : list char) : nat := list_sum (map len_utf16 src).

(** The byte offset [b] lies in [post], whose first character it is in (or at the
    end of the file or after it). *)
Definition falls_between (pre post : list char) (b : nat) : Prop :=
  byte_length pre <= b /\
  match post with [] => True | c :: _ => b < byte_length pre + len_utf8 c end.

(** [b] is where a line begins. *)
Definition begins_line (src : list char) (b : nat) : Prop :=
  b = 0 \/ exists pre post, src = pre ++ newline :: post /\ b = byte_length pre + 1.
