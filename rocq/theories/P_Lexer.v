(** C39, C56, C57 and C58: lexing. *)
From Coq Require Import String NArith ZArith Bool List Lia.
From Verif Require Import Text Strings StringsSpec SrcSpan Lexer LexerSpec LexerProofs LexerNumbers LexerStrings
  LexerSymbols LexerWhole LexerSpans LexerCuts.
Import ListNotations.
Open Scope N_scope.

(** ** C39: tokens are in order and cover the source *)

(** Up to the end of the source, or up to the text that cannot be read, the tokens follow each
    other without overlapping, inside the source, and every character belongs to a token or is
    a blank, the byte order mark or a slash in front of a comment. *)
Theorem C39_tokens_cover_the_source s : exists limit,
  read_up_to s (snd (lex s)) limit
  /\ in_order 0 limit (fst (lex s))
  /\ forall i c, stands_at s i c -> i < limit ->
       covered (fst (lex s)) i \/ between_tokens s (fst (lex s)) i c.
Proof. exact (tokens_placed s). Qed.
Print Assumptions C39_tokens_cover_the_source.

(** A name, a blank, a comment behind [//], a newline and a number; then a character which is
    not part of Gleam. *)
Example C39_some_tokens :
  lex (str "ab //c" ++ [10] ++ str "-0x1F")
  = ([(0, Name (str "ab"), 2); (5, CommentNormal, 6); (6, NewLine, 7); (7, Int (str "-0x1F") (-31), 12)],
     Finished)
  /\ lex (str "a = $")
     = ([(0, Name (str "a"), 1); (2, Symbol Equal, 3)],
        Failed {| error_kind := UnrecognizedToken 36; error_start := 4; error_end := 4 |}).
Proof. split; vm_compute; reflexivity. Qed.

(** Lexing ends: with the end of the file or with an error, never in a failed [expect], and
    after no more tokens than the source has characters. *)
Theorem C39_lexing_ends s :
  (snd (lex s) = Finished \/ exists r, snd (lex s) = Failed r)
  /\ (length (fst (lex s)) <= length s)%nat.
Proof.
  destruct (lex_spec s) as (ps & rest & T & I & F & O). split.
  - destruct O as [[O _]|(r & _ & _ & O & _)]; eauto.
  - rewrite F. apply items_size in I as [I _].
    assert (L : forall cs ps k, length (spans cs k ps) = tokens_of ps).
    { intros cs qs. unfold tokens_of. induction qs as [|[w|t w] qs IH]; intros k; cbn; auto. }
    rewrite L. eapply Nat.le_trans; [exact I|].
    transitivity (length (source_text s)); [rewrite T, app_length; apply Nat.le_add_r|].
    unfold source_text. rewrite map_length.
    assert (C : forall n s i, (length s <= n)%nat -> (length (characters i s) <= length s)%nat).
    { clear. induction n as [|n IH]; intros [|c s] i L; cbn in *; try lia.
      destruct (c =? 13).
      - destruct s as [|d s]; cbn in *; [lia|]. destruct (d =? 10); cbn [length].
        + specialize (IH s (i + 2)). lia.
        + specialize (IH (d :: s) (i + 1)). cbn in IH. lia.
      - cbn [length]. specialize (IH s (i + N.of_nat (len_utf8 c))). lia. }
    unfold source_characters. destruct s as [|c s]; [auto|].
    destruct (c =? 65279); [|apply (C (length (c :: s))); lia].
    pose proof (C (length s) s 3 ltac:(lia)). cbn [length]. lia.
Qed.
Print Assumptions C39_lexing_ends.

Example C39_one_token_for_each_character :
  length (fst (lex (str "(+)"))) = 3%nat /\ lex [] = ([], Finished).
Proof. split; vm_compute; reflexivity. Qed.

(** ** C57: tokens follow the lexical grammar *)

(** The characters of the source, with every end of line one newline and without byte order
    mark, are pieces of the grammar and a rest.  The tokens are the ones among the pieces, with
    the bytes where their texts start and end.  The rest is empty, or is text which cannot be
    read because of the error that is reported. *)
Theorem C57_tokens_follow_the_grammar s : exists ps rest,
  source_text s = (writing ps ++ rest)%list
  /\ items ps rest
  /\ fst (lex s) = spans (source_characters s) 0 ps
  /\ ((snd (lex s) = Finished /\ rest = [])
      \/ (exists r before marked,
            snd (lex s) = Failed r
            /\ bad (error_kind r) before marked rest
            /\ (error_start r, error_end r)
               = located (source_characters s) (length (writing ps)) (error_kind r) before marked)).
Proof. exact (lex_spec s). Qed.
Print Assumptions C57_tokens_follow_the_grammar.

(** The longest symbol; a byte order mark and ends of lines; a keyword is a whole word; a wrong
    escape in a string. *)
Example C57_some_texts :
  lex (str "<<->=.==") =
    ([(0, Symbol LtLt, 2); (2, Symbol RArrow, 4); (4, Symbol Equal, 5); (5, Symbol Dot, 6);
      (6, Symbol EqualEqual, 8)], Finished)
  /\ lex ([0xFEFF] ++ str "letter" ++ [13; 10] ++ str "let") =
    ([(3, Name (str "letter"), 9); (9, NewLine, 11); (11, Keyword Let, 14)], Finished)
  /\ lex ([34] ++ str "a\q" ++ [34]) =
    ([], Failed {| error_kind := BadStringEscape; error_start := 2; error_end := 3 |}).
Proof. repeat split; vm_compute; reflexivity. Qed.

(** ** C56: the span of a token cuts its text out of the source *)

(** False for a comment at the very end of a file without newline whose last character takes
    more than one byte: the span ends inside that character. *)
Theorem C56_spans_cut_tokens_refuted : exists s st t en,
  In (st, t, en) (fst (lex s)) /\ ~ cut_out s (st, t, en)
  /\ forall a b, s = (a ++ b)%list -> en <> N.of_nat (byte_length a).
Proof.
  exists (str "//" ++ [233])%list, 2, CommentNormal, 3.
  assert (N3 : forall a b, (str "//" ++ [233])%list = (a ++ b)%list -> 3 <> N.of_nat (byte_length a)).
  { intros a b E. destruct a as [|x [|y [|z [|v a]]]]; cbn in E; try discriminate; injection E; intros; subst; vm_compute; discriminate. }
  conj.
  - vm_compute. auto.
  - intros (a & w & b & E & _ & X & _). apply (N3 (a ++ w)%list b); [|exact X]. rewrite <- app_assoc. exact E.
  - exact N3.
Qed.
Print Assumptions C56_spans_cut_tokens_refuted.

(** That is the only exception: every other span starts and ends between characters, and the
    text between is one the token can be written with.  What is missing for the full claim:
    the spans that end at the end of a source whose last character is not ASCII. *)
Theorem C56_spans_cut_tokens_partial s st t en :
  In (st, t, en) (fst (lex s)) ->
  cut_out s (st, t, en)
  \/ (exists u c, s = (u ++ [c])%list /\ 128 <= c /\ en = N.of_nat (byte_length u) + 1).
Proof. exact (tokens_cut s st t en). Qed.
Print Assumptions C56_spans_cut_tokens_partial.

(** The second token of [é] in quotes and [+1] is cut out by its span. *)
Example C56_a_token_behind_a_long_character :
  lex ([34; 233; 34] ++ str "+1")
  = ([(0, StringLiteral [233], 4); (4, Symbol Plus, 5); (5, Int (str "1") 1, 6)], Finished)
  /\ ([34; 233; 34] ++ str "+1" = [34; 233; 34] ++ str "+" ++ str "1")%list
  /\ byte_length [34; 233; 34] = 4%nat.
Proof. repeat split; vm_compute; reflexivity. Qed.

(** ** C58: a minus sign directly behind a name or number is an operator *)

(** False behind the index of a tuple: [a.0-1] is a tuple access followed by the number -1. *)
Theorem C58_minus_is_an_operator_refuted : exists s A a t1 b t2 c B,
  fst (lex s) = (A ++ (a, t1, b) :: (b, t2, c) :: B)%list /\ operand t1 /\ negative t2.
Proof.
  exists (str "a.0-1"), [(0, Name (str "a"), 1); (1, Symbol Dot, 2)], 2, (Int (str "0") 0), 3, (Int (str "-1") (-1)), 5, [].
  conj; [vm_compute; reflexivity|exact I|reflexivity].
Qed.
Print Assumptions C58_minus_is_an_operator_refuted.

(** The index of a tuple is the only exception.  What is missing for the full claim: the first
    token standing directly behind a dot. *)
Theorem C58_minus_is_an_operator_partial s A a t1 b t2 c B :
  fst (lex s) = (A ++ (a, t1, b) :: (b, t2, c) :: B)%list ->
  operand t1 -> negative t2 ->
  exists A' d, A = (A' ++ [(d, Symbol Dot, a)])%list.
Proof. exact (minus_signs s A a t1 b t2 c B). Qed.
Print Assumptions C58_minus_is_an_operator_partial.

Example C58_subtractions :
  map (fun x => snd (fst x)) (fst (lex (str "a-1 2-3 f(-4)"))) =
    [Name (str "a"); Symbol Minus; Int (str "1") 1; Int (str "2") 2; Symbol Minus; Int (str "3") 3;
     Name (str "f"); Symbol LeftParen; Int (str "-4") (-4); Symbol RightParen].
Proof. vm_compute. reflexivity. Qed.
