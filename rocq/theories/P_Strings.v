(** Properties C36, C37 and C44: strings and names. *)
From Coq Require Import NArith Bool String List.
From Verif Require Import Text Strings StringsSpec StringsProofs.
Import ListNotations.
Open Scope N_scope.

(** C36: escapes stand for the intended code points. *)
Theorem C36_escapes_denote_code_points : forall s m, literal s m -> convert_string_escape_chars s = m.
Proof. exact convert_literal. Qed.
Print Assumptions C36_escapes_denote_code_points.

Example C36_escape_example : literal (str "a\u{1F600}\n\\") [97; 0x1F600; 10; 92].
Proof.
  apply (literal_piece (str "a") 97); [now constructor|].
  apply (literal_piece (str "\u{1F600}") 0x1F600).
  - apply (escaped_code_point (str "1F600")); [|now right].
    apply (more_digits 49 1 (str "F600") 0xF600); [reflexivity|].
    apply (more_digits 70 15 (str "600") 0x600); [reflexivity|].
    apply (more_digits 54 6 (str "00") 0); [reflexivity|].
    apply (more_digits 48 0 (str "0") 0); [reflexivity|]. now apply one_digit.
  - apply (literal_piece (str "\n") 10); [constructor|].
    apply (literal_piece (str "\\") 92); [constructor|]. constructor.
Qed.

(** The bytes of each encoding decode to the string, in either byte order. *)
Theorem C36_utf16_round_trip : forall s, Forall scalar_value s -> forall e, exists us,
  match e with Big => units_be | Little => units_le end (string_to_utf16_bytes s e) = Some us
  /\ join_surrogates us = Some s.
Proof. exact utf16_round_trip. Qed.
Print Assumptions C36_utf16_round_trip.

Theorem C36_utf32_round_trip : forall s, Forall scalar_value s -> forall e,
  match e with Big => words_be | Little => words_le end (string_to_utf32_bytes s e) = Some s.
Proof. exact utf32_round_trip. Qed.
Print Assumptions C36_utf32_round_trip.

Theorem C36_utf8_round_trip : forall s, Forall scalar_value s -> decode_utf8 (as_bytes s) = Some s.
Proof. exact utf8_round_trip. Qed.
Print Assumptions C36_utf8_round_trip.

(** The reported lengths are those of the encodings, whose members are bytes. *)
Theorem C36_lengths : forall s e,
  length (string_to_utf16_bytes s e) = (2 * length_utf16 s)%nat
  /\ length (string_to_utf32_bytes s e) = (4 * length_utf32 s)%nat.
Proof. intros. split; [apply utf16_length|apply utf32_length]. Qed.
Print Assumptions C36_lengths.

Theorem C36_bytes : forall s e, Forall scalar_value s ->
  Forall byte (string_to_utf16_bytes s e) /\ Forall byte (string_to_utf32_bytes s e).
Proof. intros. split; [now apply utf16_bytes|now apply utf32_bytes]. Qed.
Print Assumptions C36_bytes.

Example C36_encoding_example :
  string_to_utf16_bytes [97; 0x1F600] Little = [97; 0; 0x3D; 0xD8; 0x00; 0xDE]
  /\ string_to_utf32_bytes [0x1F600] Big = [0; 1; 0xF6; 0]
  /\ length_utf16 [97; 0x1F600] = 3%nat /\ Forall scalar_value [97; 0x1F600].
Proof.
  do 3 (split; [reflexivity|]). constructor; [now left|]. constructor; [now right|constructor].
Qed.

(** C37: the suggested correction of any lexed name is well cased -- for type names,
    exactly when there is no double underscore. *)
Theorem C37_corrections_are_well_cased_partial : forall s,
  (lexed_name s -> check_name_case (correct_name_case s Snake) Snake = true)
  /\ (lexed_discard s -> check_name_case (correct_name_case s Discard) Discard = true)
  /\ (lexed_upname s ->
      check_name_case (correct_name_case s UpperCamel) UpperCamel = true <-> ~ double_underscore s).
Proof.
  intros s. split; [|split].
  - intros H. simpl. unfold valid_name. now rewrite snake_valid by auto.
  - apply discard_valid.
  - apply upper_camel_valid.
Qed.
Print Assumptions C37_corrections_are_well_cased_partial.

Theorem C37_double_underscore_refuted : exists s, lexed_upname s
  /\ correct_name_case s UpperCamel = str "My_type"
  /\ check_name_case (correct_name_case s UpperCamel) UpperCamel = false.
Proof.
  exists (str "My__type"). split; [|split; reflexivity].
  exists 77, (str "y__type"). split; [reflexivity|]. split; [reflexivity|]. repeat constructor.
Qed.
Print Assumptions C37_double_underscore_refuted.

(** Correcting a correction changes nothing. *)
Theorem C37_corrections_are_stable : forall s,
  to_snake_case (to_snake_case s) = to_snake_case s
  /\ (lexed_upname s -> ~ double_underscore s ->
      to_upper_camel_case (to_upper_camel_case s) = to_upper_camel_case s).
Proof.
  intros s. split; [apply snake_idempotent|]. intros L D. apply upper_camel_fix.
  apply upper_camel_valid in D; auto. destruct (to_upper_camel_case s); [discriminate|].
  simpl in D. apply Bool.andb_true_iff in D as [U F]. constructor; [|now apply forallb_Forall].
  unfold is_alphanumeric. rewrite U. now rewrite orb_true_r.
Qed.
Print Assumptions C37_corrections_are_stable.

Example C37_example :
  correct_name_case (str "My_Type_two") UpperCamel = str "MyTypeTwo"
  /\ correct_name_case (str "myVarName2") Snake = str "my_var_name2"
  /\ correct_name_case (str "_Wibble") Discard = str "_wibble".
Proof. repeat split. Qed.

(** C44: the snake-case tag of a constructor is its words in small letters, joined
    by underscores ... *)
Theorem C44_tag_is_the_words : forall ws, legal_words ws -> to_snake_case (camel ws) = snake ws.
Proof. exact snake_of_words. Qed.
Print Assumptions C44_tag_is_the_words.

(** ... every legal constructor name is made of such words ... *)
Theorem C44_names_have_words : forall s, valid_upname s = true -> exists ws, legal_words ws /\ camel ws = s.
Proof. exact upname_words. Qed.
Print Assumptions C44_names_have_words.

(** ... and the tag determines the name: different constructors have different tags,
    which are legal lower-case names. *)
Theorem C44_different_names_have_different_tags : forall a b,
  valid_upname a = true -> valid_upname b = true -> to_snake_case a = to_snake_case b -> a = b.
Proof. exact snake_injective. Qed.
Print Assumptions C44_different_names_have_different_tags.

Theorem C44_tags_are_lower_case_names : forall s,
  valid_upname s = true -> valid_plain_name (to_snake_case s) = true.
Proof.
  intros s H. apply snake_valid. right. destruct s as [|c r]; [discriminate|].
  simpl in H. apply Bool.andb_true_iff in H as [U F]. exists c, r. repeat split; auto.
  apply forallb_Forall in F. eapply Forall_impl; [|exact F]. intros x Hx. unfold name_tail. now rewrite Hx.
Qed.
Print Assumptions C44_tags_are_lower_case_names.

Example C44_example : to_snake_case (str "HTTPServer2Go") = str "h_t_t_p_server2_go"
  /\ to_snake_case (str "HttpServer2go") = str "http_server2go".
Proof. split; reflexivity. Qed.
