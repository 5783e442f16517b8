(** Properties C10 and C11: the Erlang external term format builder. *)
From Coq Require Import NArith ZArith List Bool Lia.
From Verif Require Import Etf EtfSpec EtfProofs.
Import ListNotations.
Open Scope N_scope.

(** C10: decoding the bytes of a finished builder gives the term that was built,
    with no bytes over. *)
Theorem C10_message_round_trip : forall t, in_limits t ->
  decode_message (depth t) (into_vec (build t new)) = Some (t, []).
Proof. exact message_round_trip. Qed.
Print Assumptions C10_message_round_trip.

(** The same in any context: building a term in the middle of a bigger one only
    appends bytes, and whatever bytes follow, exactly the term's own are read. *)
Theorem C10_term_round_trip_in_context : forall t, in_limits t ->
  exists e,
    (forall b, buffer (build t b) = (buffer b ++ e)%list)
    /\ (forall d rest, (depth t <= d)%nat -> decode d (e ++ rest) = Some (t, rest)).
Proof. exact encodes_term. Qed.
Print Assumptions C10_term_round_trip_in_context.

(** Hence different terms are never encoded alike. *)
Theorem C10_encoding_is_injective : forall t u, in_limits t -> in_limits u ->
  into_vec (build t new) = into_vec (build u new) -> t = u.
Proof.
  intros t u Ht Hu E.
  destruct (encodes_term t Ht) as (e & B & D). destruct (encodes_term u Hu) as (e' & B' & D').
  unfold into_vec in E. rewrite B, B' in E. apply app_inv_head in E. subst e'.
  specialize (D (Nat.max (depth t) (depth u)) [] (Nat.le_max_l _ _)).
  specialize (D' (Nat.max (depth t) (depth u)) [] (Nat.le_max_r _ _)).
  congruence.
Qed.
Print Assumptions C10_encoding_is_injective.

Example C10_example :
  let t := TTuple [TAtom [111; 107]; TList [TInt (-1); TInt 300; TList [TBinary [1; 2]]]; TFloat 5;
                   TInt (2 ^ 70); TList []] in
  in_limits t /\
  into_vec (build t new) =
    [131; 104; 5; 119; 2; 111; 107; 108; 0; 0; 0; 3; 98; 255; 255; 255; 255; 98; 0; 0; 1; 44;
     108; 0; 0; 0; 1; 109; 0; 0; 0; 2; 1; 2; 106; 106; 70; 0; 0; 0; 0; 0; 0; 0; 5;
     110; 9; 0; 0; 0; 0; 0; 0; 0; 0; 0; 64; 106].
Proof.
  split; [|reflexivity].
  cbn [in_limits length]. repeat split; reflexivity.
Qed.

(** C11.  The builder's [bigint] is right for every integer whose magnitude has
    at most 255 bytes. *)
Theorem C11_integers_round_trip_partial : forall z b d rest, (Z.abs z < 256 ^ 255)%Z ->
  exists e, buffer (bigint b z) = (buffer b ++ e)%list
    /\ decode (S d) (e ++ rest) = Some (TInt z, rest).
Proof.
  intros z b d rest H. destruct (encodes_int z H) as (e & B & D).
  exists e. split; [apply B|apply D]. simpl. lia.
Qed.
Print Assumptions C11_integers_round_trip_partial.

(** Above it is wrong: the length byte is truncated, so 2^2040 (256 magnitude
    bytes) is announced as having none. *)
Theorem C11_huge_integers_refuted : exists z,
  forall d, decode_message (S d) (into_vec (bigint new z)) <> Some (TInt z, []).
Proof.
  exists (2 ^ 2040)%Z. intros d.
  remember (into_vec (bigint new (2 ^ 2040)%Z)) as m eqn:E. vm_compute in E. rewrite E.
  cbn [decode_message decode]. unfold take. cbn [N.leb N.compare]. intros H. vm_compute in H.
  congruence.
Qed.
Print Assumptions C11_huge_integers_refuted.

(** [large_big], the format's other encoding, has no such limit below 2^32 bytes. *)
Theorem C11_large_big_round_trips : forall z b d rest,
  z <> 0%Z -> N.of_nat (byte_count (Z.abs_N z)) < 2 ^ 32 ->
  exists e, buffer (large_big b z) = (buffer b ++ e)%list
    /\ decode (S d) (e ++ rest) = Some (TInt z, rest).
Proof. exact large_big_round_trip. Qed.
Print Assumptions C11_large_big_round_trips.

(** [usize] is right below 2^31 ... *)
Theorem C11_usize_round_trips_partial : forall v b d rest, v < 2 ^ 31 ->
  exists e, buffer (usize b v) = (buffer b ++ e)%list
    /\ decode (S d) (e ++ rest) = Some (TInt (Z.of_N v), rest).
Proof. exact usize_round_trip. Qed.
Print Assumptions C11_usize_round_trips_partial.

(** ... and wrong above: 2^31 is sent as -2^31. *)
Theorem C11_big_usize_refuted : exists v, v < 2 ^ 64 /\
  decode_message 1 (into_vec (usize new v)) = Some (TInt (- Z.of_N v), [])
  /\ v <> 0.
Proof. exists (2 ^ 31). split; [|split]; try reflexivity. discriminate. Qed.
Print Assumptions C11_big_usize_refuted.

Example C11_example :
  into_vec (bigint new (-256)) = [131; 98; 255; 255; 255; 0]
  /\ into_vec (bigint new (2 ^ 31)) = [131; 110; 4; 0; 0; 0; 0; 128]
  /\ into_vec (large_big new (- 2 ^ 31)) = [131; 111; 0; 0; 0; 4; 1; 0; 0; 0; 128]
  /\ into_vec (usize new 256) = [131; 98; 0; 0; 1; 0].
Proof. repeat split. Qed.
