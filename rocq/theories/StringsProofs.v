From Coq Require Import NArith ZArith Bool String List Lia.
From Coq Require Import ZifyBool ZifyNat ZifyN.
From Verif Require Import Text TextProofs Strings StringsSpec.
Import ListNotations.
Open Scope N_scope.
Ltac Zify.zify_post_hook ::= Z.div_mod_to_equations.
Local Arguments N.eqb : simpl never.
Local Arguments N.ltb : simpl never.
Local Arguments N.leb : simpl never.
Local Arguments N.add : simpl never.
Local Arguments N.sub : simpl never.
Local Arguments N.mul : simpl never.
Local Arguments N.pow : simpl never.

(** ** Escapes *)
Lemma position_cons c d s n : position c (d :: s) = Some n ->
  (c = d /\ n = 0) \/ (c <> d /\ exists m, position c s = Some m /\ n = N.succ m).
Proof.
  simpl. destruct (N.eqb_spec c d); [intros [= <-]; auto|].
  destruct (position c s) eqn:E; [|discriminate]. intros [= <-]. right. eauto.
Qed.

Ltac crack H :=
  match type of H with
  | position _ [] = Some _ => discriminate H
  | position _ (_ :: _) = Some _ =>
      apply position_cons in H as [[-> ->]|(_ & ? & H & ->)]; [|crack H]
  end.

Lemma nibble_value c d : nibble c = Some d -> is_hexdigit c = true /\ hex_digit_value c = d /\ d < 16.
Proof.
  unfold nibble. destruct (position c (str "0123456789abcdef")) as [n|] eqn:E.
  - intros [= <-]. change (str "0123456789abcdef") with [48;49;50;51;52;53;54;55;56;57;97;98;99;100;101;102] in E.
    crack E; (split; [reflexivity|split; reflexivity]).
  - clear E. intros E.
    change (str "0123456789ABCDEF") with [48;49;50;51;52;53;54;55;56;57;65;66;67;68;69;70] in E.
    crack E; (split; [reflexivity|split; reflexivity]).
Qed.

Lemma hex_fold s : forall acc, fold_left (fun acc c => 16 * acc + hex_digit_value c) s acc
  = acc * 16 ^ N.of_nat (length s) + hex_value s.
Proof.
  unfold hex_value. induction s as [|c s IH]; intros acc; cbn [fold_left length].
  - change (16 ^ N.of_nat 0) with 1. lia.
  - rewrite IH, (IH (16 * 0 + _)). rewrite Nat2N.inj_succ, N.pow_succ_r'. lia.
Qed.

Lemma denotes_value s n : denotes s n -> s <> [] /\ Forall (fun c => is_hexdigit c = true) s /\ hex_value s = n.
Proof.
  induction 1 as [c d H|c d s n H D (NE & F & V)]; (apply nibble_value in H as (H1 & H2 & _)).
  - repeat split; [discriminate|now constructor|]. unfold hex_value. cbn [fold_left]. lia.
  - repeat split; [discriminate|now constructor|]. unfold hex_value at 1. cbn [fold_left].
    rewrite hex_fold, V. f_equal. f_equal. lia.
Qed.

Lemma convert_enough f : forall g s, (length s <= f)%nat -> (length s <= g)%nat ->
  convert_escapes f s = convert_escapes g s.
Proof.
  induction f as [|f IH]; intros g s Hf Hg.
  - destruct s; [|simpl in Hf; lia]. destruct g; reflexivity.
  - destruct g as [|g]; [destruct s; [reflexivity|simpl in Hg; lia]|].
    destruct s as [|c s]; [reflexivity|]. simpl in Hf, Hg |- *.
    destruct (c =? backslash); simpl; [|f_equal; apply IH; lia].
    destruct s as [|e s]; [reflexivity|]. simpl in Hf, Hg.
    assert (R : convert_escapes f s = convert_escapes g s) by (apply IH; lia).
    destruct (e =? 117).
    + destruct s as [|b s]; [now rewrite R|].
      destruct (b =? brace_open); [|now rewrite R].
      destruct (span_while is_hexdigit s) as [hex rest] eqn:S. apply span_while_spec in S as (-> & _ & _).
      simpl in Hf, Hg. rewrite app_length in Hf, Hg.
      rewrite (IH g rest) by lia.
      destruct hex; [reflexivity|]. destruct rest as [|b' rest]; [reflexivity|].
      simpl in Hf, Hg. rewrite (IH g rest) by lia. reflexivity.
    + rewrite R. reflexivity.
Qed.

Lemma convert_length f s : (length s <= f)%nat -> convert_escapes f s = convert_string_escape_chars s.
Proof. intros. now apply convert_enough. Qed.

Lemma convert_plain c s : c <> 92 ->
  convert_string_escape_chars (c :: s) = c :: convert_string_escape_chars s.
Proof.
  intros. unfold convert_string_escape_chars. cbn [length convert_escapes].
  unfold backslash. destruct (N.eqb_spec c 92); [contradiction|]. reflexivity.
Qed.

Lemma convert_simple e m s : e <> 117 ->
  (if e =? 110 then 10 else if e =? 114 then 13 else if e =? 102 then 12 else if e =? 116 then 9 else e) = m ->
  convert_string_escape_chars (92 :: e :: s) = m :: convert_string_escape_chars s.
Proof.
  intros N1 <-. unfold convert_string_escape_chars at 1. cbn [length].
  remember (S (length s)) as f eqn:Hf. cbn [convert_escapes].
  change (92 =? backslash) with true. cbn [negb].
  destruct (N.eqb_spec e 117); [contradiction|].
  rewrite convert_length by lia.
  repeat (destruct (_ =? _); [reflexivity|]). reflexivity.
Qed.

Lemma scalar_from n : scalar_value n -> char_from_u32 n = Some n.
Proof. unfold scalar_value, char_from_u32. intros [H|H]; [replace (n <? 0xD800) with true by lia; reflexivity|].
  replace ((0xE000 <=? n) && (n <=? 0x10FFFF)) with true by lia. now rewrite orb_true_r. Qed.

Lemma convert_piece p c s : piece p c ->
  convert_string_escape_chars (p ++ s) = c :: convert_string_escape_chars s.
Proof.
  destruct 1 as [c N1| | | | | | |digits n D V]; [now apply convert_plain|..];
    try (apply convert_simple; [discriminate|reflexivity]).
  apply denotes_value in D as (NE & F & E).
  rewrite <- !app_assoc. change (str "\u{") with [92; 117; 123]. change (str "}") with [125].
  unfold convert_string_escape_chars at 1. cbn [app length].
  match goal with |- convert_escapes (S ?n) _ = _ => remember n as f eqn:Hf end. cbn [convert_escapes].
  change (92 =? backslash) with true. change (117 =? 117) with true. change (123 =? brace_open) with true.
  cbn [negb]. rewrite span_while_app by (auto; reflexivity).
  destruct digits as [|d digits]; [congruence|]. cbn [app]. change (125 =? brace_close) with true. cbn iota.
  unfold u32_from_hex. rewrite E.
  replace (n <? 2 ^ 32) with true by (unfold scalar_value in V; change (2 ^ 32) with 4294967296; lia).
  rewrite scalar_from by auto. f_equal. apply convert_length. rewrite app_length in Hf. simpl in Hf. lia.
Qed.

Theorem convert_literal s m : literal s m -> convert_string_escape_chars s = m.
Proof. induction 1 as [|p c s m P _ IH]; [reflexivity|]. now rewrite (convert_piece _ _ _ P), IH. Qed.

(** ** Encodings *)
Lemma u16_units n : n < 65536 -> forall e, exists a b, u16_bytes e n = [a; b] /\ a < 256 /\ b < 256
  /\ match e with Big => a * 256 + b | Little => b * 256 + a end = n.
Proof. intros H e. destruct e; simpl; do 2 eexists; (split; [reflexivity|]); lia. Qed.

Lemma encode_utf16_units c : scalar_value c -> Forall (fun u => u < 65536) (encode_utf16 c).
Proof.
  unfold scalar_value, encode_utf16. intros H. destruct (N.ltb_spec c 0x10000); repeat constructor; lia.
Qed.

Definition units (s : text) := flat_map encode_utf16 s.
Lemma utf16_units s e : string_to_utf16_bytes s e = flat_map (u16_bytes e) (units s).
Proof. unfold string_to_utf16_bytes, units. induction s as [|c s IH]; [reflexivity|].
  cbn [flat_map]. rewrite flat_map_app. now rewrite IH. Qed.

Lemma scalar_units s : Forall scalar_value s -> Forall (fun u => u < 65536) (units s).
Proof. induction 1; [constructor|]. simpl. apply Forall_app. split; auto. now apply encode_utf16_units. Qed.

Lemma units_of_bytes us : Forall (fun u => u < 65536) us -> forall e,
  match e with Big => units_be | Little => units_le end (flat_map (u16_bytes e) us) = Some us.
Proof.
  induction 1 as [|u us H _ IH]; intros e; [destruct e; reflexivity|].
  destruct (u16_units u H e) as (a & b & E & _ & _ & V). cbn [flat_map]. rewrite E. specialize (IH e).
  destruct e; simpl; rewrite IH; simpl; now rewrite V.
Qed.

Lemma join_units s : Forall scalar_value s -> join_surrogates (units s) = Some s.
Proof.
  induction 1 as [|c s H _ IH]; [reflexivity|].
  unfold units in *. cbn [flat_map]. unfold encode_utf16 at 1. unfold scalar_value in H.
  destruct (N.ltb_spec c 0x10000); cbn [app join_surrogates].
  - replace ((0xD800 <=? c) && (c <? 0xDC00)) with false by lia.
    replace ((0xDC00 <=? c) && (c <? 0xE000)) with false by lia. now rewrite IH.
  - set (h := 0xD800 + (c - 0x10000) / 1024). set (l := 0xDC00 + (c - 0x10000) mod 1024).
    replace ((0xD800 <=? h) && (h <? 0xDC00)) with true by (unfold h; lia).
    replace ((0xDC00 <=? l) && (l <? 0xE000)) with true by (unfold l; lia).
    rewrite IH. simpl. do 2 f_equal. unfold h, l. lia.
Qed.

Theorem utf16_round_trip s : Forall scalar_value s -> forall e, exists us,
  match e with Big => units_be | Little => units_le end (string_to_utf16_bytes s e) = Some us
  /\ join_surrogates us = Some s.
Proof.
  intros H e. exists (units s). rewrite utf16_units. split; [|now apply join_units].
  apply (units_of_bytes _ (scalar_units s H)).
Qed.

Lemma u16_length e us : length (flat_map (u16_bytes e) us) = (2 * length us)%nat.
Proof. induction us; [reflexivity|]. simpl flat_map. rewrite app_length, IHus. destruct e; simpl; lia. Qed.
Lemma units_length s : length (units s) = length_utf16 s.
Proof.
  unfold units, length_utf16. induction s as [|c s IH]; [reflexivity|].
  cbn [flat_map map list_sum fold_right]. rewrite app_length, IH. unfold encode_utf16.
  destruct (c <? 0x10000); reflexivity.
Qed.
Theorem utf16_length s e : length (string_to_utf16_bytes s e) = (2 * length_utf16 s)%nat.
Proof. now rewrite utf16_units, u16_length, units_length. Qed.

Theorem utf32_round_trip s : Forall scalar_value s -> forall e,
  match e with Big => words_be | Little => words_le end (string_to_utf32_bytes s e) = Some s.
Proof.
  unfold string_to_utf32_bytes. intros H e.
  induction H as [|c s H _ IH]; [destruct e; reflexivity|]. unfold scalar_value in H.
  destruct e; cbn [flat_map u32_bytes rev app words_be words_le]; rewrite IH; simpl; do 2 f_equal;
    change (2 ^ 24) with 16777216; change (2 ^ 16) with 65536; change (2 ^ 8) with 256; lia.
Qed.
Theorem utf32_length s e : length (string_to_utf32_bytes s e) = (4 * length_utf32 s)%nat.
Proof.
  unfold string_to_utf32_bytes, length_utf32. induction s as [|c s IH]; [reflexivity|].
  cbn [flat_map length]. rewrite app_length, IH. destruct e; simpl; lia.
Qed.

Definition byte (b : N) : Prop := b < 256.
Theorem utf16_bytes s e : Forall scalar_value s -> Forall byte (string_to_utf16_bytes s e).
Proof.
  intros H. rewrite utf16_units. apply scalar_units in H. induction H as [|u us H _ IH]; [constructor|].
  cbn [flat_map]. apply Forall_app. split; auto.
  destruct (u16_units u H e) as (a & b & -> & A & B & _). repeat constructor; auto.
Qed.
Theorem utf32_bytes s e : Forall scalar_value s -> Forall byte (string_to_utf32_bytes s e).
Proof.
  unfold string_to_utf32_bytes. induction 1 as [|c s H _ IH]; [constructor|].
  cbn [flat_map]. apply Forall_app. split; auto. unfold scalar_value in H.
  destruct e; cbn [u32_bytes rev app]; repeat constructor; unfold byte;
  change (2 ^ 24) with 16777216; change (2 ^ 16) with 65536; change (2 ^ 8) with 256; lia.
Qed.

Theorem utf8_round_trip s : Forall scalar_value s -> decode_utf8 (as_bytes s) = Some s.
Proof.
  unfold as_bytes. induction 1 as [|c s H _ IH]; [reflexivity|]. unfold scalar_value in H.
  cbn [flat_map]. unfold encode_utf8 at 1.
  destruct (N.ltb_spec c 0x80); [|destruct (N.ltb_spec c 0x800); [|destruct (N.ltb_spec c 0x10000)]];
    cbn [app decode_utf8]; unfold is_continuation.
  - replace (c <? 0x80) with true by lia. now rewrite IH.
  - set (a := 0xC0 + c / 64). set (b := 0x80 + c mod 64).
    replace (a <? 0x80) with false by (unfold a; lia). replace (a <? 0xC0) with false by (unfold a; lia).
    replace ((0x80 <=? b) && (b <? 0xC0)) with true by (unfold b; lia). cbn [negb].
    replace (a <? 0xE0) with true by (unfold a; lia). rewrite IH. simpl. do 2 f_equal. unfold a, b. lia.
  - set (a := 0xE0 + c / 4096). set (b := 0x80 + (c / 64) mod 64). set (d := 0x80 + c mod 64).
    replace (a <? 0x80) with false by (unfold a; lia). replace (a <? 0xC0) with false by (unfold a; lia).
    replace ((0x80 <=? b) && (b <? 0xC0)) with true by (unfold b; lia). cbn [negb].
    replace (a <? 0xE0) with false by (unfold a; lia).
    replace ((0x80 <=? d) && (d <? 0xC0)) with true by (unfold d; lia). cbn [negb].
    replace (a <? 0xF0) with true by (unfold a; lia). rewrite IH. simpl. do 2 f_equal. unfold a, b, d. lia.
  - set (a := 0xF0 + c / 262144). set (b := 0x80 + (c / 4096) mod 64). set (d := 0x80 + (c / 64) mod 64).
    set (e := 0x80 + c mod 64).
    replace (a <? 0x80) with false by (unfold a; lia). replace (a <? 0xC0) with false by (unfold a; lia).
    replace ((0x80 <=? b) && (b <? 0xC0)) with true by (unfold b; lia). cbn [negb].
    replace (a <? 0xE0) with false by (unfold a; lia).
    replace ((0x80 <=? d) && (d <? 0xC0)) with true by (unfold d; lia). cbn [negb].
    replace (a <? 0xF0) with false by (unfold a; lia).
    replace ((0x80 <=? e) && (e <? 0xC0)) with true by (unfold e; lia). cbn [negb].
    rewrite IH. simpl. do 2 f_equal. unfold a, b, d, e. lia.
Qed.

(** ** Names *)
Ltac chars := unfold name_tail, name_character, is_alphanumeric, is_upper, is_lower, is_digit,
  to_ascii_lowercase, to_ascii_uppercase, underscore, space, is_upper, is_lower in *.

Lemma lower_tail c : name_tail c = true -> c <> 95 ->
  name_character (to_ascii_lowercase c) = true.
Proof. chars. intros. destruct ((65 <=? c) && (c <=? 90)) eqn:E; lia. Qed.

Lemma snake_loop_characters s : Forall (fun c => name_tail c = true) s -> forall e b,
  Forall (fun c => name_character c = true) (snake_case_loop e b s).
Proof.
  induction 1 as [|c s H _ IH]; intros e b; [constructor|]. simpl.
  destruct ((c =? underscore) || (c =? space)) eqn:U; [apply IH|].
  assert (L : name_character (to_ascii_lowercase c) = true) by (apply lower_tail; auto; chars; lia).
  destruct (b || is_upper c); [destruct e|]; repeat constructor; auto.
Qed.

Lemma forallb_Forall {A} (p : A -> bool) l : forallb p l = true <-> Forall (fun c => p c = true) l.
Proof. rewrite forallb_forall, Forall_forall. reflexivity. Qed.

Lemma snake_valid s : lexed_name s \/ lexed_upname s -> valid_plain_name (to_snake_case s) = true.
Proof.
  unfold to_snake_case.
  assert (G : forall c r, is_lower c = true \/ is_upper c = true -> Forall (fun c => name_tail c = true) r ->
    valid_plain_name (snake_case_loop true true (c :: r)) = true).
  { intros c r L F. simpl.
    replace ((c =? underscore) || (c =? space)) with false by (chars; lia). simpl.
    apply andb_true_iff. split; [chars; destruct ((65 <=? c) && (c <=? 90)) eqn:E; lia|].
    apply forallb_Forall. now apply snake_loop_characters. }
  intros [(c & r & -> & L & F)|(c & r & -> & L & F)]; apply G; auto.
Qed.

Lemma discard_valid s : lexed_discard s -> valid_discard_name (underscore :: to_snake_case s) = true.
Proof.
  intros (r & -> & F). unfold to_snake_case. cbn [valid_discard_name snake_case_loop].
  change (underscore =? underscore) with true. change ((95 =? underscore) || (95 =? space)) with true.
  cbn [andb]. apply forallb_Forall. now apply snake_loop_characters.
Qed.

(** Upper camel case *)
Lemma upper_camel_tail s : Forall (fun c => name_tail c = true) s ->
  Forall (fun c => is_alphanumeric c = true) (to_upper_camel_case s) <-> ~ double_underscore s.
Proof.
  assert (G : forall n s, (length s <= n)%nat -> Forall (fun c => name_tail c = true) s ->
    Forall (fun c => is_alphanumeric c = true) (to_upper_camel_case s) <-> ~ double_underscore s); [|now apply (G (length s))].
  clear s. induction n as [|n IH]; intros s L F.
  { destruct s; [|simpl in L; lia]. split; [|constructor]. intros _ (a & b & H). destruct a; discriminate. }
  destruct F as [|c s H F]; [split; [|constructor]; intros _ (a & b & H); destruct a; discriminate|].
  simpl in L |- *. unfold underscore. destruct (N.eqb_spec c 95) as [->|N1].
  - destruct F as [|d s H' F].
    + split; [|constructor]. intros _ (a & b & E). destruct a as [|? [|]]; discriminate.
    + destruct (N.eqb_spec d 95) as [->|N2].
      * split; [inversion 1; subst; discriminate|]. intros D. destruct D. now exists [], s.
      * simpl in L. rewrite Forall_cons_iff, IH by (auto; lia). split.
        -- intros [_ D] (a & b & E). apply D. destruct a as [|x [|y a]]; simpl in E.
           ++ congruence.
           ++ congruence.
           ++ injection E as _ _ E. now exists a, b.
        -- intros D. split; [chars; destruct ((97 <=? d) && (d <=? 122)) eqn:?; lia|].
           intros (a & b & ->). apply D. now exists (95 :: d :: a), b.
  - rewrite Forall_cons_iff, IH by (auto; lia). split.
    + intros [_ D] (a & b & E). apply D. destruct a as [|x a]; simpl in E; [congruence|].
      injection E as -> E. now exists a, b.
    + intros D. split; [chars; lia|]. intros (a & b & ->). apply D. now exists (c :: a), b.
Qed.

Lemma upper_camel_valid s : lexed_upname s ->
  valid_upname (to_upper_camel_case s) = true <-> ~ double_underscore s.
Proof.
  intros (c & r & -> & U & F).
  assert (N1 : c <> 95) by (intros ->; discriminate).
  simpl. unfold underscore. destruct (N.eqb_spec c 95); [contradiction|]. simpl.
  rewrite U. simpl. rewrite forallb_Forall, upper_camel_tail by auto.
  split; intros D (a & b & E); apply D.
  - destruct a as [|x a]; simpl in E; [congruence|]. injection E as -> E. now exists a, b.
  - subst. now exists (c :: a), b.
Qed.

Lemma upper_camel_fix s : Forall (fun c => is_alphanumeric c = true) s -> to_upper_camel_case s = s.
Proof.
  induction 1 as [|c s H _ IH]; [reflexivity|]. simpl.
  destruct (c =? underscore) eqn:E; [chars; lia|]. now rewrite IH.
Qed.

(** Snake case *)
Lemma lower_lower c : to_ascii_lowercase (to_ascii_lowercase c) = to_ascii_lowercase c.
Proof. chars. destruct ((65 <=? c) && (c <=? 90)) eqn:E; [|now rewrite E].
  replace ((65 <=? c + 32) && (c + 32 <=? 90)) with false by lia. reflexivity. Qed.

Lemma snake_idem_loop s : forall e b,
  snake_case_loop e b (snake_case_loop e b s) = snake_case_loop e b s.
Proof.
  assert (St : forall c, (c =? underscore) || (c =? space) = false -> 
     let l := to_ascii_lowercase c in (l =? underscore) || (l =? space) = false /\ is_upper l = false /\ to_ascii_lowercase l = l).
  { intros c H l. split; [|split; [|apply lower_lower]];
    (subst l; chars; destruct ((65 <=? c) && (c <=? 90)) eqn:E; lia). }
  induction s as [|c s IH]; intros e b; [reflexivity|]. cbn [snake_case_loop].
  destruct ((c =? underscore) || (c =? space)) eqn:U.
  - (* the loop with the boundary flag set *)
    destruct b; [apply IH|].
    (* whatever comes out begins with an underscore, or is the first letter *)
    specialize (IH e true).
    assert (S : forall s e, snake_case_loop e false (snake_case_loop e true s) = snake_case_loop e true (snake_case_loop e true s)
      \/ e = true).
    { clear. intros s [|]; auto. left. induction s as [|c s IH]; [reflexivity|]. cbn [snake_case_loop].
      destruct ((c =? underscore) || (c =? space)); [exact IH|]. cbn [orb snake_case_loop]. reflexivity. }
    destruct e; [|destruct (S s false) as [->|]; [exact IH|discriminate]].
    clear S. revert IH. generalize (snake_case_loop true true s). intros t.
    (* nothing pushed yet: the flag does not matter to a letter *)
    destruct t as [|d t]; [reflexivity|]. cbn [snake_case_loop].
    destruct ((d =? underscore) || (d =? space)); [auto|]. cbn [orb].
    destruct (is_upper d); auto.
  - destruct (St c U) as (U' & P' & L').
    destruct (b || is_upper c) eqn:B.
    + destruct e; cbn [snake_case_loop]; rewrite ?U'.
      * rewrite P', L'. destruct b; cbn [orb]; [now rewrite IH|]. now rewrite IH.
      * change ((underscore =? underscore) || (underscore =? space)) with true. cbn iota. cbn [orb].
        rewrite L'. now rewrite IH.
    + cbn [snake_case_loop]. rewrite U', P', L'. apply orb_false_iff in B as [-> _]. cbn [orb]. now rewrite IH.
Qed.

Theorem snake_idempotent s : to_snake_case (to_snake_case s) = to_snake_case s.
Proof. apply snake_idem_loop. Qed.

Lemma snake_small r rest : Forall (fun c => is_lower c = true \/ is_digit c = true) r ->
  snake_case_loop false false (r ++ rest) = (r ++ snake_case_loop false false rest)%list.
Proof.
  induction 1 as [|c r H _ IH]; [reflexivity|]. cbn [app snake_case_loop].
  replace ((c =? underscore) || (c =? space)) with false by (chars; lia).
  replace (is_upper c) with false by (chars; lia). cbn [orb].
  replace (to_ascii_lowercase c) with c by (chars; destruct ((65 <=? c) && (c <=? 90)) eqn:E; lia).
  now rewrite IH.
Qed.

Theorem snake_of_words ws : legal_words ws -> to_snake_case (camel ws) = snake ws.
Proof.
  unfold to_snake_case. intros H.
  assert (G : forall w ws, legal_words (w :: ws) -> forall e b,
    snake_case_loop e b (camel (w :: ws)) = if e then snake (w :: ws) else 95 :: snake (w :: ws)).
  { clear. intros w ws. revert w. induction ws as [|w' ws IH]; intros [c r] H e b;
    inversion H as [|? ? [U F] H']; subst; cbn [fst snd] in *.
    - change (camel [(c, r)]) with (c :: r ++ [])%list. cbn [snake_case_loop].
      replace ((c =? underscore) || (c =? space)) with false by (chars; lia).
      rewrite U, orb_true_r. replace (to_ascii_lowercase c) with (c + 32) by (unfold to_ascii_lowercase; now rewrite U).
      rewrite snake_small by auto. cbn [snake_case_loop snake fst snd]. rewrite app_nil_r. destruct e; reflexivity.
    - change (camel ((c, r) :: w' :: ws)) with (c :: r ++ camel (w' :: ws))%list. cbn [snake_case_loop].
      replace ((c =? underscore) || (c =? space)) with false by (chars; lia).
      rewrite U, orb_true_r. replace (to_ascii_lowercase c) with (c + 32) by (unfold to_ascii_lowercase; now rewrite U).
      rewrite snake_small by auto. rewrite IH by auto. destruct e; reflexivity. }
  destruct ws; [reflexivity|]. now rewrite G.
Qed.

Lemma upname_words s : valid_upname s = true -> exists ws, legal_words ws /\ camel ws = s.
Proof.
  assert (G : forall s, Forall (fun c => is_alphanumeric c = true) s ->
    exists r ws, Forall (fun c => is_lower c = true \/ is_digit c = true) r /\ legal_words ws /\ s = (r ++ camel ws)%list).
  { clear. induction 1 as [|c s H _ (r & ws & F & W & ->)].
    - exists [], []. repeat constructor.
    - destruct (is_upper c) eqn:U.
      + exists [], ((c, r) :: ws). repeat split; [constructor|constructor; auto].
      + exists (c :: r), ws. repeat split; auto. constructor; auto. chars. lia. }
  destruct s as [|c s]; [discriminate|]. simpl. rewrite andb_true_iff, forallb_Forall. intros [U F].
  destruct (G s F) as (r & ws & Fr & W & ->). exists ((c, r) :: ws). split; [constructor; auto|reflexivity].
Qed.

Lemma camel_small r rest : Forall (fun c => is_lower c = true \/ is_digit c = true) r ->
  to_upper_camel_case (r ++ rest) = (r ++ to_upper_camel_case rest)%list.
Proof.
  induction 1 as [|c r H _ IH]; [reflexivity|]. cbn [app to_upper_camel_case].
  destruct (N.eqb_spec c underscore) as [E|E]; [chars; lia|]. now rewrite IH.
Qed.

Lemma camel_of_snake ws : legal_words ws -> to_upper_camel_case (underscore :: snake ws) = camel ws.
Proof.
  induction 1 as [|[c r] ws [U F] W IH]; [reflexivity|]. cbn [fst snd] in *.
  assert (E : to_ascii_uppercase (c + 32) = c) by (chars; replace ((97 <=? c + 32) && (c + 32 <=? 122)) with true by lia; lia).
  destruct ws as [|w ws].
  - cbn [snake fst snd to_upper_camel_case]. change (underscore =? underscore) with true. cbn iota.
    rewrite E. cbn [camel flat_map fst snd]. rewrite <- (app_nil_r r) at 1. rewrite camel_small by auto. reflexivity.
  - change (snake ((c, r) :: w :: ws)) with (c + 32 :: r ++ underscore :: snake (w :: ws))%list.
    cbn [to_upper_camel_case]. change (underscore =? underscore) with true. cbn iota.
    rewrite E, camel_small by auto. rewrite IH. reflexivity.
Qed.

Theorem camel_inverts_snake s : valid_upname s = true ->
  to_upper_camel_case (underscore :: to_snake_case s) = s.
Proof. intros H. apply upname_words in H as (ws & W & <-). now rewrite snake_of_words, camel_of_snake. Qed.

Theorem snake_injective a b : valid_upname a = true -> valid_upname b = true ->
  to_snake_case a = to_snake_case b -> a = b.
Proof. intros A B E. rewrite <- (camel_inverts_snake a), <- (camel_inverts_snake b) by auto. now rewrite E. Qed.
