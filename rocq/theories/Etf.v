(** Model of the Erlang term format builder: /repo/erlang-term-format/src/lib.rs.

    The builder's buffer is the list of bytes written so far (each an [N] below
    256).  Debug assertions about unclosed lists are not modelled. *)
From Coq Require Import NArith ZArith List Bool.
Import ListNotations.
Open Scope N_scope.

Definition bytes := list N.

(** [x as u8], [x as u16], [x as u32]: truncation. *)
Definition as_bits (n : N) (x : N) : N := x mod 2 ^ n.

(** The lowest [k] bytes of [x], least significant first. *)
Fixpoint le_bytes (k : nat) (x : N) : bytes :=
  match k with O => [] | S k => (x mod 256) :: le_bytes k (x / 256) end.
(** [uN::to_be_bytes] *)
Definition to_be_bytes (k : nat) (x : N) : bytes := rev (le_bytes k x).

(** [i32::to_be_bytes]: two's complement of [z]. *)
Definition i32_be_bytes (z : Z) : bytes := to_be_bytes 4 (Z.to_N (z mod 2 ^ 32)).

(** num-bigint [BigInt::to_bytes_le]: sign and the magnitude's bytes with no
    superfluous zero byte at the most significant end; zero is [[0]]. *)
Definition byte_count (x : N) : nat := N.to_nat ((N.size x + 7) / 8).
Definition to_bytes_le (z : Z) : bool * bytes :=
  ((z <? 0)%Z, if (z =? 0)%Z then [0] else le_bytes (byte_count (Z.abs_N z)) (Z.abs_N z)).

Record builder := Builder { buffer : bytes }.

(** lib.rs:78-93 *)
Definition new : builder := Builder [131].
Definition into_vec (b : builder) : bytes := buffer b.
Definition push (b : builder) (byte : N) : builder := Builder (buffer b ++ [byte]).
Definition extend (b : builder) (bs : bytes) : builder := Builder (buffer b ++ bs).

(** lib.rs:206-208 *)
Definition empty_list (b : builder) : builder := push b 106.

(** lib.rs:120-133; returns the [ListEnder]'s size_index. *)
Definition start_list (b : builder) : builder * nat :=
  let b := push b 108 in
  let size_index := length (buffer b) in
  (push (push (push (push b 0) 0) 0) 0, size_index).

(** [bytes[i..i + new.len()].copy_from_slice(new)] *)
Definition overwrite (l : bytes) (i : nat) (new : bytes) : bytes :=
  (firstn i l ++ new ++ skipn (i + length new) l)%list.

(** lib.rs:135-140 *)
Definition end_list (b : builder) (size_index : nat) (number_of_element : N) : builder :=
  let b := empty_list b in
  Builder (overwrite (buffer b) size_index (to_be_bytes 4 number_of_element)).

(** lib.rs:240-252 *)
Definition small_atom_utf8 (b : builder) (name : bytes) : builder :=
  extend (push (push b 119) (as_bits 8 (N.of_nat (length name)))) name.
Definition atom_utf8 (b : builder) (name : bytes) : builder :=
  extend (extend (push b 118) (to_be_bytes 2 (as_bits 16 (N.of_nat (length name))))) name.
(** lib.rs:143-153 *)
Definition atom (b : builder) (name : bytes) : builder :=
  if N.of_nat (length name) <=? 255 then small_atom_utf8 b name else atom_utf8 b name.

(** lib.rs:177-186 *)
Definition small_integer (b : builder) (value : N) : builder := push (push b 97) value.
Definition integer (b : builder) (value : Z) : builder := extend (push b 98) (i32_be_bytes value).

(** lib.rs:217-226 *)
Definition small_big (b : builder) (number : Z) : builder :=
  let '(minus, bs) := to_bytes_le number in
  let b := push (push b 110) (as_bits 8 (N.of_nat (length bs))) in
  extend (push b (if minus then 1 else 0)) bs.
(** lib.rs:229-238 *)
Definition large_big (b : builder) (number : Z) : builder :=
  let '(minus, bs) := to_bytes_le number in
  let b := extend (push b 111) (to_be_bytes 4 (as_bits 32 (N.of_nat (length bs)))) in
  extend (push b (if minus then 1 else 0)) bs.

(** lib.rs:156-164 *)
Definition bigint (b : builder) (value : Z) : builder :=
  if (0 <=? value)%Z && (value <=? 255)%Z then small_integer b (Z.to_N value)
  else if (- 2 ^ 31 <=? value)%Z && (value <? 2 ^ 31)%Z then integer b value
  else small_big b value.

(** lib.rs:168-174; [value as i32] keeps the low 32 bits as two's complement,
    which [i32_be_bytes] already does. *)
Definition usize (b : builder) (value : N) : builder :=
  if value <=? 255 then small_integer b value else integer b (Z.of_N value).

(** lib.rs:189-192.  The argument is the IEEE bit pattern of the float. *)
Definition new_float (b : builder) (bits : N) : builder := extend (push b 70) (to_be_bytes 8 bits).

(** lib.rs:195-204 *)
Definition small_tuple (b : builder) (arity : N) : builder := push (push b 104) arity.
Definition large_tuple (b : builder) (arity : N) : builder :=
  extend (push b 105) (to_be_bytes 4 arity).

(** lib.rs:211-215 *)
Definition binary (b : builder) (bytes_count : N) (bs : bytes) : builder :=
  extend (extend (push b 109) (to_be_bytes 4 bytes_count)) bs.
