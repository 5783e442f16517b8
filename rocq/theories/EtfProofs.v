From Coq Require Import NArith ZArith List Bool Lia Arith.
From Coq Require Import ZifyBool ZifyNat ZifyN.
From Verif Require Import Etf EtfSpec.
Import ListNotations.
Open Scope N_scope.
Ltac Zify.zify_post_hook ::= Z.div_mod_to_equations.

(** ** Bytes *)
Lemma le_bytes_length k x : length (le_bytes k x) = k.
Proof. revert x; induction k; intros; simpl; auto. Qed.
Lemma to_be_bytes_length k x : length (to_be_bytes k x) = k.
Proof. unfold to_be_bytes. now rewrite rev_length, le_bytes_length. Qed.

Lemma le_value_le_bytes k : forall x, x < 256 ^ N.of_nat k -> le_value (le_bytes k x) = x.
Proof.
  induction k as [|k IH]; intros x H.
  - simpl in *. lia.
  - rewrite Nat2N.inj_succ, N.pow_succ_r' in H. cbn [le_bytes le_value].
    rewrite IH; [|apply N.div_lt_upper_bound; lia].
    pose proof (N.div_mod x 256). lia.
Qed.

Lemma be_value_app a b :
  be_value (a ++ b) = be_value a * 256 ^ N.of_nat (length b) + be_value b.
Proof.
  induction a as [|x a IH]; simpl; [lia|].
  rewrite IH, app_length, Nat2N.inj_add, N.pow_add_r. ring.
Qed.

Lemma be_value_rev l : be_value (rev l) = le_value l.
Proof.
  induction l as [|x l IH]; simpl; auto.
  rewrite be_value_app, IH.
  replace (be_value [x]) with x by (cbn [be_value length]; change (256 ^ N.of_nat 0) with 1; lia).
  change (256 ^ N.of_nat (length [x])) with 256. destruct x, (le_value l); lia.
Qed.

Lemma be_value_be_bytes k x : x < 256 ^ N.of_nat k -> be_value (to_be_bytes k x) = x.
Proof. intros. unfold to_be_bytes. rewrite be_value_rev. now apply le_value_le_bytes. Qed.

Lemma byte_count_enough x : x < 256 ^ N.of_nat (byte_count x).
Proof.
  unfold byte_count. rewrite N2Nat.id.
  destruct x as [|p]; [simpl; lia|].
  pose proof (N.size_gt (N.pos p)) as H.
  eapply N.lt_le_trans; [exact H|].
  change 256 with (2 ^ 8). rewrite <- N.pow_mul_r.
  apply N.pow_le_mono_r; [lia|]. lia.
Qed.

Lemma byte_count_bound x k : 0 < x -> x < 256 ^ N.of_nat k -> (byte_count x <= k)%nat.
Proof.
  intros P H. unfold byte_count.
  assert (S : N.size x <= 8 * N.of_nat k).
  { rewrite N.size_log2 by lia. apply N.le_succ_l.
    apply N.log2_lt_pow2; [lia|]. change 256 with (2 ^ 8) in H. now rewrite <- N.pow_mul_r in H. }
  lia.
Qed.

(** ** Reading back *)
Lemma take_app a b : take (N.of_nat (length a)) (a ++ b) = Some (a, b).
Proof.
  unfold take. rewrite app_length.
  destruct (N.leb_spec (N.of_nat (length a)) (N.of_nat (length a + length b))); [|lia].
  rewrite Nat2N.id, firstn_app, Nat.sub_diag, firstn_all, skipn_app, skipn_all, Nat.sub_diag.
  simpl. now rewrite app_nil_r.
Qed.

Lemma take_app_n n a b : N.of_nat (length a) = n -> take n (a ++ b) = Some (a, b).
Proof. intros <-. apply take_app. Qed.

Lemma as_bits_small n x : x < 2 ^ n -> as_bits n x = x.
Proof. intros. unfold as_bits. now apply N.mod_small. Qed.

(** ** Terms *)
Section term_ind.
  Variable P : term -> Prop.
  Hypothesis HAtom : forall n, P (TAtom n).
  Hypothesis HInt : forall z, P (TInt z).
  Hypothesis HFloat : forall x, P (TFloat x).
  Hypothesis HBinary : forall b, P (TBinary b).
  Hypothesis HTuple : forall ts, Forall P ts -> P (TTuple ts).
  Hypothesis HList : forall ts, Forall P ts -> P (TList ts).
  Fixpoint term_induction (t : term) : P t :=
    match t with
    | TAtom n => HAtom n
    | TInt z => HInt z
    | TFloat x => HFloat x
    | TBinary b => HBinary b
    | TTuple ts => HTuple ts ((fix all l : Forall P l :=
        match l with [] => Forall_nil P | t :: l => Forall_cons t (term_induction t) (all l) end) ts)
    | TList ts => HList ts ((fix all l : Forall P l :=
        match l with [] => Forall_nil P | t :: l => Forall_cons t (term_induction t) (all l) end) ts)
    end.
End term_ind.

Definition deepest := fix deepest l := match l with [] => O | t :: l => Nat.max (depth t) (deepest l) end.
Definition all_in_limits :=
  fix all l := match l with [] => True | t :: l => in_limits t /\ all l end.

(** [t] is encoded as [e]: the builder appends [e], and [e] reads back as [t]. *)
Definition encodes (t : term) (e : bytes) : Prop :=
  (forall b, buffer (build t b) = (buffer b ++ e)%list)
  /\ (forall d rest, (depth t <= d)%nat -> decode d (e ++ rest) = Some (t, rest)).

Lemma encodes_all ts :
  Forall (fun t => in_limits t -> exists e, encodes t e) ts -> all_in_limits ts ->
  exists e,
    (forall b, buffer (fold_left (fun b t => build t b) ts b) = (buffer b ++ e)%list)
    /\ (forall d rest, (deepest ts <= d)%nat ->
          decode_n (decode d) (length ts) (e ++ rest) = Some (ts, rest)).
Proof.
  induction 1 as [|t ts H _ IH]; simpl; intros L.
  - exists []. split; intros; simpl; auto. now rewrite app_nil_r.
  - destruct L as [L1 L2]. destruct (H L1) as (e & B & D). destruct (IH L2) as (e' & B' & D').
    exists (e ++ e')%list. split.
    + intros b. rewrite B', B. now rewrite app_assoc.
    + intros d rest Hd. rewrite <- app_assoc, D by lia. rewrite D' by lia. reflexivity.
Qed.

Lemma encodes_int z : (Z.abs z < 256 ^ 255)%Z -> exists e, encodes (TInt z) e.
Proof.
  intros L. unfold encodes. cbn [build depth].
  unfold bigint.
  destruct ((0 <=? z)%Z && (z <=? 255)%Z) eqn:E1.
  - exists [97; Z.to_N z]. split.
    + intros b. simpl. now rewrite <- app_assoc.
    + intros [|d] rest Hd; [lia|]. cbn [app decode].
      rewrite Z2N.id by lia. reflexivity.
  - destruct ((- 2 ^ 31 <=? z)%Z && (z <? 2 ^ 31)%Z) eqn:E2.
    + exists (98 :: i32_be_bytes z). split.
      * intros b. simpl. now rewrite <- app_assoc.
      * intros [|d] rest Hd; [lia|]. cbn [app decode].
        unfold i32_be_bytes.
        rewrite (take_app_n 4) by now rewrite to_be_bytes_length.
        rewrite be_value_be_bytes.
        2:{ change (256 ^ N.of_nat 4) with (2 ^ 32). lia. }
        unfold signed32.
        destruct (N.ltb_spec (Z.to_N (z mod 2 ^ 32)) (2 ^ 31)); do 3 f_equal; lia.
    + destruct (to_bytes_le z) as [minus bs] eqn:Eb.
      assert (NZ : z <> 0%Z) by lia.
      unfold to_bytes_le in Eb. rewrite (proj2 (Z.eqb_neq z 0) NZ) in Eb. injection Eb as Em Ebs.
      set (x := Z.abs_N z) in *.
      assert (Len : (length bs <= 255)%nat).
      { rewrite <- Ebs, le_bytes_length. apply byte_count_bound; [unfold x; lia|].
        unfold x. change (N.of_nat 255) with 255. lia. }
      exists (110 :: N.of_nat (length bs) :: (if minus then 1 else 0) :: bs). split.
      * intros b. unfold small_big, to_bytes_le.
        rewrite (proj2 (Z.eqb_neq z 0) NZ). fold x. rewrite Em, Ebs. simpl.
        rewrite as_bits_small by (change (2 ^ 8) with 256; lia).
        now rewrite <- !app_assoc.
      * intros [|d] rest Hd; [lia|]. cbn [app decode].
        rewrite take_app. do 3 f_equal.
        rewrite <- Ebs, le_value_le_bytes by apply byte_count_enough.
        unfold with_sign, x. destruct minus; simpl; lia.
Qed.

Lemma encodes_term t : in_limits t -> exists e, encodes t e.
Proof.
  induction t as [name|z|x|bs|ts IH|ts IH] using term_induction; intros L.
  - simpl in L. unfold encodes. cbn [build depth]. unfold atom.
    destruct (N.leb_spec (N.of_nat (length name)) 255).
    + exists (119 :: N.of_nat (length name) :: name). split.
      * intros b. unfold small_atom_utf8. simpl.
        rewrite as_bits_small by (change (2 ^ 8) with 256; lia). now rewrite <- !app_assoc.
      * intros [|d] rest Hd; [lia|]. cbn [app decode]. now rewrite take_app.
    + exists (118 :: to_be_bytes 2 (N.of_nat (length name)) ++ name). split.
      * intros b. unfold atom_utf8. simpl buffer.
        rewrite as_bits_small by lia. now rewrite <- !app_assoc.
      * intros [|d] rest Hd; [lia|]. cbn [app decode]. rewrite <- app_assoc.
        rewrite (take_app_n 2) by now rewrite to_be_bytes_length.
        rewrite be_value_be_bytes by (change (256 ^ N.of_nat 2) with (2 ^ 16); lia).
        now rewrite take_app.
  - now apply encodes_int.
  - simpl in L. exists (70 :: to_be_bytes 8 x). split.
    + intros b. cbn [build]. unfold new_float. simpl. now rewrite <- app_assoc.
    + intros [|d] rest Hd; [simpl in Hd; lia|]. cbn [app decode].
      rewrite (take_app_n 8) by now rewrite to_be_bytes_length.
      now rewrite be_value_be_bytes by (change (256 ^ N.of_nat 8) with (2 ^ 64); lia).
  - simpl in L. exists (109 :: to_be_bytes 4 (N.of_nat (length bs)) ++ bs). split.
    + intros b. cbn [build]. unfold binary. simpl buffer. now rewrite <- !app_assoc.
    + intros [|d] rest Hd; [simpl in Hd; lia|]. cbn [app decode]. rewrite <- app_assoc.
      rewrite (take_app_n 4) by now rewrite to_be_bytes_length.
      rewrite be_value_be_bytes by (change (256 ^ N.of_nat 4) with (2 ^ 32); lia).
      now rewrite take_app.
  - destruct L as [L1 L2]. fold all_in_limits in L2.
    destruct (encodes_all ts IH L2) as (e & B & D).
    unfold encodes. cbn [build].
    destruct (N.leb_spec (N.of_nat (length ts)) 255).
    + exists (104 :: N.of_nat (length ts) :: e). split.
      * intros b. rewrite B. simpl. now rewrite <- !app_assoc.
      * intros [|d] rest Hd; [simpl in Hd; lia|]. cbn [app decode].
        rewrite Nat2N.id. simpl in Hd. fold deepest in Hd. now rewrite D by lia.
    + exists (105 :: to_be_bytes 4 (N.of_nat (length ts)) ++ e). split.
      * intros b. rewrite B. simpl buffer. now rewrite <- !app_assoc.
      * intros [|d] rest Hd; [simpl in Hd; lia|]. cbn [app decode]. rewrite <- app_assoc.
        rewrite (take_app_n 4) by now rewrite to_be_bytes_length.
        rewrite be_value_be_bytes by (change (256 ^ N.of_nat 4) with (2 ^ 32); lia).
        rewrite Nat2N.id. simpl in Hd. fold deepest in Hd. now rewrite D by lia.
  - destruct L as [L1 L2]. fold all_in_limits in L2.
    destruct (encodes_all ts IH L2) as (e & B & D).
    destruct ts as [|t ts].
    { exists [106]. split.
      - intros b. reflexivity.
      - intros [|d] rest Hd; [simpl in Hd; lia|]. reflexivity. }
    remember (t :: ts) as l eqn:El.
    exists (108 :: to_be_bytes 4 (N.of_nat (length l)) ++ e ++ [106]). split.
    + intros b.
      assert (U : build (TList l) b =
        end_list (fold_left (fun b t => build t b) l (fst (start_list b))) (snd (start_list b))
          (N.of_nat (length l))) by (subst l; reflexivity).
      rewrite U. unfold end_list. cbn [buffer empty_list push]. rewrite B.
      unfold start_list. cbn [fst snd buffer push]. unfold overwrite.
      set (p := (buffer b ++ [108])%list).
      assert (E : ((((((p ++ [0]) ++ [0]) ++ [0]) ++ [0]) ++ e) ++ [106]
                   = p ++ ([0; 0; 0; 0] ++ e ++ [106]))%list).
      { rewrite <- !app_assoc. reflexivity. }
      rewrite E. rewrite firstn_app, Nat.sub_diag, firstn_all, firstn_O, app_nil_r.
      rewrite skipn_app. rewrite skipn_all2 by lia.
      rewrite to_be_bytes_length. replace (length p + 4 - length p)%nat with 4%nat by lia.
      simpl skipn. unfold p. rewrite <- !app_assoc. reflexivity.
    + intros [|d] rest Hd; [simpl in Hd; lia|]. cbn [app decode]. rewrite <- !app_assoc.
      rewrite (take_app_n 4) by now rewrite to_be_bytes_length.
      rewrite be_value_be_bytes by (change (256 ^ N.of_nat 4) with (2 ^ 32); lia).
      rewrite Nat2N.id. simpl in Hd. fold deepest in Hd. now rewrite D by lia.
Qed.

Lemma message_round_trip t : in_limits t ->
  decode_message (depth t) (into_vec (build t new)) = Some (t, []).
Proof.
  intros L. destruct (encodes_term t L) as (e & B & D).
  unfold into_vec. rewrite B. simpl. rewrite <- (app_nil_r e). now apply D.
Qed.

(** [large_big] for very large integers. *)
Lemma large_big_round_trip z b d rest :
  z <> 0%Z -> N.of_nat (byte_count (Z.abs_N z)) < 2 ^ 32 ->
  exists e, buffer (large_big b z) = (buffer b ++ e)%list
    /\ decode (S d) (e ++ rest) = Some (TInt z, rest).
Proof.
  intros NZ L. unfold large_big, to_bytes_le. rewrite (proj2 (Z.eqb_neq z 0) NZ).
  set (x := Z.abs_N z) in *. set (bs := le_bytes (byte_count x) x).
  exists (111 :: to_be_bytes 4 (N.of_nat (length bs)) ++ (if (z <? 0)%Z then 1 else 0) :: bs).
  assert (Len : length bs = byte_count x) by apply le_bytes_length.
  split.
  - simpl buffer. rewrite as_bits_small by (rewrite Len; lia). now rewrite <- !app_assoc.
  - cbn [app decode]. rewrite <- app_assoc.
    rewrite (take_app_n 4) by now rewrite to_be_bytes_length.
    cbn [app].
    rewrite be_value_be_bytes by (change (256 ^ N.of_nat 4) with (2 ^ 32); rewrite Len; lia).
    rewrite take_app. do 3 f_equal.
    unfold bs. rewrite le_value_le_bytes by apply byte_count_enough.
    unfold with_sign, x. destruct (Z.ltb_spec z 0); simpl; lia.
Qed.

Lemma usize_round_trip v b d rest : v < 2 ^ 31 ->
  exists e, buffer (usize b v) = (buffer b ++ e)%list
    /\ decode (S d) (e ++ rest) = Some (TInt (Z.of_N v), rest).
Proof.
  intros L. unfold usize. destruct (N.leb_spec v 255).
  - exists [97; v]. split; [simpl; now rewrite <- app_assoc|reflexivity].
  - exists (98 :: i32_be_bytes (Z.of_N v)). split; [simpl; now rewrite <- app_assoc|].
    cbn [app decode]. unfold i32_be_bytes.
    rewrite (take_app_n 4) by now rewrite to_be_bytes_length.
    rewrite be_value_be_bytes.
    2:{ change (256 ^ N.of_nat 4) with (2 ^ 32). lia. }
    unfold signed32.
    destruct (N.ltb_spec (Z.to_N (Z.of_N v mod 2 ^ 32)) (2 ^ 31)); do 3 f_equal; lia.
Qed.
