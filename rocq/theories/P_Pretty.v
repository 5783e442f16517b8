(** Property theorems: pretty printer (C01-C06, C41). *)
From Coq Require Import String Ascii ZArith List Bool Lia.
From Verif Require Import Pretty PrettySpec PrettyProofs.
Import ListNotations.
Open Scope string_scope.
Open Scope Z_scope.

(** A small document used in the examples: a call with two arguments. *)
Definition sample_call : doc :=
  Group (Join4 (Str "call(" 5)
               (Nest 2 Increase Always
                 (Join4 (Break "" "" Strict) (Str "one" 3) (Break "," ", " Strict) (Str "two" 3)))
               (Break "," "" Strict) (Str ")" 1)).
Definition newline_s : string := String newline "".

(** C01 *)
Theorem C01_output_is_a_layout : forall limit d,
  exists ps, layout false 0 d ps
    /\ to_pretty_string limit d = render ps
    /\ observed (pretty_print limit d) = observations 0 0 ps.
Proof. exact layout_top. Qed.
Print Assumptions C01_output_is_a_layout.

Theorem C01_output_is_a_layout_in_context : forall limit l w i b d docs,
  exists ps, layout b i d ps
    /\ written (format limit l w ((i, if b then Broken else Unbroken, d) :: docs))
       = (render ps
          ++ written (format limit (fst (cursor l w ps)) (snd (cursor l w ps)) docs))%string
    /\ observed (format limit l w ((i, if b then Broken else Unbroken, d) :: docs))
       = (observations l w ps
          ++ observed (format limit (fst (cursor l w ps)) (snd (cursor l w ps)) docs))%list.
Proof. exact layout_in_context. Qed.
Print Assumptions C01_output_is_a_layout_in_context.

Example C01_example :
  to_pretty_string 80 sample_call = "call(one, two)"
  /\ to_pretty_string 8 sample_call
     = "call(" ++ newline_s ++ "  one," ++ newline_s ++ "  two," ++ newline_s ++ ")".
Proof. split; vm_compute; reflexivity. Qed.

(** The loops of the model never run out of fuel, whatever the fuel beyond the
    size of the queue: the model is the real, unbounded loop. *)
Theorem C01_loops_terminate : forall n limit l w docs, (stack_size docs <= n)%nat ->
  format_loop n limit l w docs = Some (format limit l w docs)
  /\ fits_loop n limit w docs = Some (fits limit w docs).
Proof. intros; split; [now apply format_eq|now apply fits_eq]. Qed.
Print Assumptions C01_loops_terminate.

(** C02 *)
Theorem C02_fitting_group_is_one_line : forall limit l w i m d docs,
  soft d -> widths_ok d -> w + flat_width d <= limit ->
  written (format limit l w ((i, m, Group d) :: docs))
  = (render (flat d) ++ written (format limit l (w + flat_width d) docs))%string.
Proof. exact group_flat_text. Qed.
Print Assumptions C02_fitting_group_is_one_line.

Example C02_example : soft sample_call /\ widths_ok sample_call
  /\ flat_width sample_call = 14 /\ render (flat sample_call) = "call(one, two)".
Proof. repeat split; simpl; lia. Qed.

(** C03.  [b] tells which way the group went. *)
Theorem C03_flat_group_respects_limit : forall limit l w i m d docs,
  no_next_break_fits d -> widths_ok d ->
  exists b ps, layout b i d ps
    /\ written (format limit l w ((i, m, Group d) :: docs))
       = (render ps
          ++ written (format limit (fst (cursor l w ps)) (snd (cursor l w ps)) docs))%string
    /\ (b = false -> first_line_end w ps <= limit)
    /\ (b = true -> ~ fits_after limit w (lead Unbroken d)).
Proof. exact group_respects_limit. Qed.
Print Assumptions C03_flat_group_respects_limit.

(** Exactly when a group is laid out flat: the text up to the first certain
    line end fits and no forced break comes first. *)
Theorem C03_group_is_flat_iff_it_fits : forall limit l w i m d docs, widths_ok d ->
  (fits_after limit w (lead Unbroken d) ->
   format limit l w ((i, m, Group d) :: docs) = format limit l w ((i, Unbroken, d) :: docs))
  /\ (~ fits_after limit w (lead Unbroken d) ->
   format limit l w ((i, m, Group d) :: docs) = format limit l w ((i, Broken, d) :: docs)).
Proof. exact group_mode. Qed.
Print Assumptions C03_group_is_flat_iff_it_fits.

(** A flexible break of a broken group is a newline exactly when what follows it
    does not fit. *)
Theorem C03_flex_break_is_flat_iff_rest_fits : forall limit l w i br un docs,
  widths_ok_all docs ->
  (fits_after limit (w + slen un) (lead_all docs) ->
   format limit l w ((i, Broken, Break br un Flex) :: docs)
   = Write un :: format limit l (w + slen un) docs)
  /\ (~ fits_after limit (w + slen un) (lead_all docs) ->
   format limit l w ((i, Broken, Break br un Flex) :: docs)
   = Write br :: Write (newlines 1) :: Write (spaces i) :: format limit (l + 1) i docs).
Proof. exact flex_choice. Qed.
Print Assumptions C03_flex_break_is_flat_iff_rest_fits.

Example C03_example :
  no_next_break_fits sample_call /\ widths_ok sample_call
  /\ fits_after 14 0 (lead Unbroken sample_call)
  /\ ~ fits_after 13 0 (lead Unbroken sample_call).
Proof. repeat split; simpl; try lia; try discriminate. intros [H _]. vm_compute in H. now apply H. Qed.

(** Without the hypothesis about next-break-fits the claim is false: breaks
    inside an enabled next-break-fits count as line ends when measuring, but are
    printed flat. *)
Theorem C03_limit_with_next_break_fits_refuted :
  exists limit d, widths_ok d
    /\ fits_after limit 0 (lead Unbroken d)
    /\ to_pretty_string limit (Group d) = "aaaa bbbbbbb" /\ limit = 6.
Proof.
  exists 6, (NextBreakFits (Join3 (Str "aaaa" 4) (Break "" " " Strict) (Str "bbbbbbb" 7)) NBFEnabled).
  repeat split; simpl; try lia; discriminate.
Qed.
Print Assumptions C03_limit_with_next_break_fits_refuted.

(** C04 *)
Theorem C04_forced_group_is_broken : forall limit l w i m d docs,
  widths_ok d -> forced_early d ->
  exists ps, layout true i d ps
    /\ written (format limit l w ((i, m, Group d) :: docs))
       = (render ps
          ++ written (format limit (fst (cursor l w ps)) (snd (cursor l w ps)) docs))%string.
Proof. exact forced_group. Qed.
Print Assumptions C04_forced_group_is_broken.

Example C04_example :
  let d := Join3 (Str "a" 1) (Break "," ", " Strict) (ForceBroken (Str "b" 1)) in
  forced_early d /\ widths_ok d
  /\ to_pretty_string 80 (Group d) = "a," ++ newline_s ++ "b".
Proof.
  repeat split; simpl; try lia.
  apply FEJoin3_3; [split; simpl; auto|split; simpl; auto|constructor].
Qed.

(** A forced break behind a hard line does not count: the group is flat. *)
Theorem C04_forced_break_after_hard_line_refuted :
  exists d, widths_ok d
    /\ to_pretty_string 80 (Group (Join3 (Line 1) (Join (Str "a" 1) (Break "," ", " Strict)) (ForceBroken d)))
       = newline_s ++ "a, b".
Proof. exists (Str "b" 1). split; [simpl; lia|reflexivity]. Qed.
Print Assumptions C04_forced_break_after_hard_line_refuted.

(** C05: false of the code; exactly five of the constants are wrong. *)
Theorem C05_constant_widths_refuted :
  exists e, In e const_str_table
    /\ match e with (_, text, width) => width <> slen text end.
Proof.
  exists ("CONST_SPACE_DOCUMENT", "const ", 5). split; [|vm_compute; discriminate].
  vm_compute. tauto.
Qed.
Print Assumptions C05_constant_widths_refuted.

Theorem C05_constant_widths_partial : forall name text width,
  In (name, text, width) const_str_table ->
  width = slen text \/
  In (name, text, width)
    [("CONST_SPACE_DOCUMENT", "const ", 5); ("SPACE_AS_DOCUMENT", " as", 2);
     ("IF_SPACE_DOCUMENT", "if ", 2);
     ("INTERNAL_ATTRIBUTE_SPACE_DOCUMENT", "@internal ", 9);
     ("DIVIDE_FLOAT_DOCUMENT", "divideFloat", 9)].
Proof.
  assert (H : Forall (fun e => match e with (n, t, w) =>
     w = slen t \/ In (n, t, w)
    [("CONST_SPACE_DOCUMENT", "const ", 5); ("SPACE_AS_DOCUMENT", " as", 2);
     ("IF_SPACE_DOCUMENT", "if ", 2);
     ("INTERNAL_ATTRIBUTE_SPACE_DOCUMENT", "@internal ", 9);
     ("DIVIDE_FLOAT_DOCUMENT", "divideFloat", 9)] end) const_str_table).
  { unfold const_str_table.
    repeat (apply Forall_cons; [first [left; reflexivity | right; simpl; tauto]|]).
    apply Forall_nil. }
  rewrite Forall_forall in H. intros n t w I. exact (H _ I).
Qed.
Print Assumptions C05_constant_widths_partial.

(** C06: a constructed document prints, in any context, exactly as its parts one
    after the other would (and is measured the same). *)
Theorem C06_append_is_concatenation : forall limit i m a b docs,
  (forall w, fits limit w ((i, m, append a b) :: docs)
             = fits limit w ((i, m, a) :: (i, m, b) :: docs))
  /\ (forall l w, format limit l w ((i, m, append a b) :: docs)
             = format limit l w ((i, m, a) :: (i, m, b) :: docs)).
Proof. exact queue_eq_append. Qed.
Print Assumptions C06_append_is_concatenation.

Theorem C06_concat_is_concatenation : forall limit i m ds docs,
  (forall w, fits limit w ((i, m, concat ds) :: docs) = fits limit w (at_level i m ds ++ docs))
  /\ (forall l w, format limit l w ((i, m, concat ds) :: docs)
                  = format limit l w (at_level i m ds ++ docs)).
Proof. exact queue_eq_concat. Qed.
Print Assumptions C06_concat_is_concatenation.

Theorem C06_join_puts_separators_between : forall limit i m sep ds docs,
  (forall w, fits limit w ((i, m, join ds sep) :: docs)
             = fits limit w (at_level i m (intersperse sep ds) ++ docs))
  /\ (forall l w, format limit l w ((i, m, join ds sep) :: docs)
             = format limit l w (at_level i m (intersperse sep ds) ++ docs)).
Proof. exact queue_eq_join_list. Qed.
Print Assumptions C06_join_puts_separators_between.

Theorem C06_surround_is_concatenation : forall limit i m d o c docs,
  (forall w, fits limit w ((i, m, surround d o c) :: docs)
             = fits limit w (at_level i m [o; d; c] ++ docs))
  /\ (forall l w, format limit l w ((i, m, surround d o c) :: docs)
             = format limit l w (at_level i m [o; d; c] ++ docs)).
Proof.
  intros. change (queue_eq limit ((i, m, surround d o c) :: docs)
                    (at_level i m [o; d; c] ++ docs)).
  eapply queue_eq_trans; apply queue_eq_append.
Qed.
Print Assumptions C06_surround_is_concatenation.

Theorem C06_empty_is_unit : forall limit i m docs,
  (forall w, fits limit w ((i, m, Empty) :: docs) = fits limit w docs)
  /\ (forall l w, format limit l w ((i, m, Empty) :: docs) = format limit l w docs).
Proof. exact queue_eq_empty. Qed.
Print Assumptions C06_empty_is_unit.

(** Grouping only adds the choice between flat and broken. *)
Theorem C06_group_keeps_the_text : forall b i d ps,
  layout b i (group d) ps <-> exists b', layout b' i d ps.
Proof. exact layout_group. Qed.
Print Assumptions C06_group_keeps_the_text.

Theorem C06_group_is_Group : forall limit i m d docs,
  (forall w, fits limit w ((i, m, group d) :: docs) = fits limit w ((i, m, Group d) :: docs))
  /\ (forall l w, format limit l w ((i, m, group d) :: docs)
             = format limit l w ((i, m, Group d) :: docs)).
Proof. exact queue_eq_group. Qed.
Print Assumptions C06_group_is_Group.

Example C06_example :
  to_pretty_string 80 (join [Str "a" 1; Str "b" 1; Str "c" 1] (Str ", " 2)) = "a, b, c"
  /\ to_pretty_string 80 (concat [Str "a" 1; Empty; Str "c" 1; Str "d" 1; Str "e" 1]) = "acde".
Proof. split; reflexivity. Qed.

Theorem C06_is_empty_prints_nothing : forall limit d, lineless d ->
  (is_empty d = true <-> to_pretty_string limit d = "").
Proof. exact is_empty_exact. Qed.
Print Assumptions C06_is_empty_prints_nothing.

(** Not so for documents with breaks: a break with no broken text is "empty" but
    prints its unbroken text. *)
Theorem C06_is_empty_refuted :
  exists d, is_empty d = true /\ to_pretty_string 80 d = " ".
Proof. exists (Break "" " " Strict). split; reflexivity. Qed.
Print Assumptions C06_is_empty_refuted.

(** C41: when widths are byte lengths, every observer is told the real line and
    column of the text written so far. *)
Theorem C41_observers_are_told_the_position : forall limit d, plain d ->
  observed_truly "" (pretty_print limit d).
Proof. exact observers_truthful. Qed.
Print Assumptions C41_observers_are_told_the_position.

Example C41_example :
  let d := Join3 (Str "ab" 2) (Nest 2 Increase Always (Line 1)) (Join (CursorPositionObserver 7) (Str "c" 1)) in
  plain d /\ observed (pretty_print 80 d) = [(7%nat, 1, 2)].
Proof. repeat split; simpl; try lia; discriminate. Qed.
