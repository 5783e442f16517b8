(** Property theorems: spans and line numbers (C07, C08, C09, C42). *)
From Coq Require Import NArith List Bool Arith Lia.
From Verif Require Import SrcSpan SrcSpanSpec SrcSpanProofs.
Import ListNotations.

(** "a", newline, a two-byte letter, an emoji (4 bytes, 2 UTF-16 units), "b". *)
Definition sample : list char := [97; 10; 233; 0x1F600; 98]%N.

(** C07.  Every byte offset, also inside a character or past the end, falls
    somewhere: [split_exists]. *)
Theorem C07_line_number_counts_newlines : forall pre post b,
  falls_between pre post b ->
  line_number (new (pre ++ post)) b = newlines_in pre + 1.
Proof. exact line_number_spec. Qed.
Print Assumptions C07_line_number_counts_newlines.

Theorem C07_column_is_distance_from_last_newline : forall pre post b ln,
  falls_between pre post b -> last_line pre ln ->
  line_and_utf8_column_number (new (pre ++ post)) b
  = LineColumn (newlines_in pre + 1) (byte_length ln + (b - byte_length pre)).
Proof. exact utf8_column_spec. Qed.
Print Assumptions C07_column_is_distance_from_last_newline.

Theorem C07_every_offset_covered : forall src b,
  exists pre post ln, src = pre ++ post /\ falls_between pre post b /\ last_line pre ln.
Proof.
  intros src b. destruct (split_exists src b) as (pre & post & E & F).
  destruct (last_line_exists pre) as (ln & L). exists pre, post, ln. auto.
Qed.
Print Assumptions C07_every_offset_covered.

Example C07_example :
  falls_between [97; 10; 233]%N [0x1F600; 98]%N 4 /\ last_line [97; 10; 233]%N [233]%N
  /\ line_and_utf8_column_number (new sample) 4 = LineColumn 2 2.
Proof.
  split; [vm_compute; lia|]. split; [|reflexivity].
  split; [intros [H|[]]; discriminate|right; exists [97%N]; reflexivity].
Qed.

(** C08 *)
Theorem C08_offset_to_position : forall pre post ln, last_line pre ln ->
  line_and_utf16_column_number (new (pre ++ post)) (byte_length pre)
  = Some (LineColumn (newlines_in pre + 1) (utf16_length ln + 1)).
Proof. exact utf16_column_spec. Qed.
Print Assumptions C08_offset_to_position.

Theorem C08_position_to_offset : forall pre post ln, last_line pre ln ->
  byte_index (new (pre ++ post)) (Position (newlines_in pre) (utf16_length ln))
  = Some (byte_length pre).
Proof. exact byte_index_spec. Qed.
Print Assumptions C08_position_to_offset.

Theorem C08_round_trip : forall pre post,
  exists p, line_and_utf16_column_number (new (pre ++ post)) (byte_length pre) = Some p
    /\ byte_index (new (pre ++ post)) (Position (line p - 1) (column p - 1))
       = Some (byte_length pre).
Proof. exact round_trip. Qed.
Print Assumptions C08_round_trip.

Theorem C08_range_round_trip : forall pre mid post,
  let src := pre ++ mid ++ post in
  let s := Span (byte_length pre) (byte_length (pre ++ mid)) in
  exists r, src_span_to_lsp_range s (new src) = Some r
    /\ lsp_range_to_src_span r (new src) = Some s.
Proof. exact range_round_trip. Qed.
Print Assumptions C08_range_round_trip.

Theorem C08_conversions_terminate : forall src b p,
  line_and_utf16_column_number (new src) b <> None /\ byte_index (new src) p <> None.
Proof. exact conversions_total. Qed.
Print Assumptions C08_conversions_terminate.

Theorem C08_line_past_the_end_is_end_of_file : forall src p, newlines_in src < pline p ->
  byte_index (new src) p = Some (byte_length src).
Proof. exact past_last_line. Qed.
Print Assumptions C08_line_past_the_end_is_end_of_file.

Example C08_example :
  line_and_utf16_column_number (new sample) 8 = Some (LineColumn 2 4)
  /\ byte_index (new sample) (Position 1 3) = Some 8
  /\ byte_index (new sample) (Position 9 0) = Some 9.
Proof. vm_compute. auto. Qed.

(** C42: the protocol says a character past the end of a line means the end of
    that line; the code runs on into the next lines and past the end of the file. *)
Theorem C42_position_past_line_end_refuted :
  exists src p b, pline p = 0 /\ byte_index (new src) p = Some b
    /\ line_number (new src) b <> 1 /\ byte_length src < b.
Proof.
  exists [97; 10]%N, (Position 0 5), 5. vm_compute. repeat split; auto; discriminate.
Qed.
Print Assumptions C42_position_past_line_end_refuted.

(** What holds: a position within its line gives an offset on that line. *)
Theorem C42_position_within_line_stays_on_line_partial : forall pre post ln b,
  last_line pre ln ->
  byte_index (new (pre ++ post)) (Position (newlines_in pre) (utf16_length ln)) = Some b ->
  line_number (new (pre ++ post)) b = newlines_in pre + 1 /\ b <= byte_length (pre ++ post).
Proof.
  intros pre post ln b L. rewrite (byte_index_spec pre post ln L). intros H. injection H as <-.
  split; [apply line_number_spec, boundary_falls|rewrite byte_length_app; lia].
Qed.
Print Assumptions C42_position_within_line_stays_on_line_partial.

(** C09.  [well_formed] spans start no later than they end, as all spans of the
    parser do. *)
Definition well_formed (s : span) : Prop := start s <= end_ s.

Theorem C09_containment_is_pointwise : forall s t, well_formed t ->
  (contains_span s t = true
   <-> forall b, contains t b = true -> contains s b = true).
Proof.
  intros s t W. unfold contains_span, contains, well_formed in *.
  rewrite !andb_true_iff, !Nat.leb_le. split.
  - intros H b. rewrite !andb_true_iff, !Nat.leb_le. lia.
  - intros H. pose proof (H (start t)) as A. pose proof (H (end_ t)) as B.
    rewrite !andb_true_iff, !Nat.leb_le in A, B. lia.
Qed.
Print Assumptions C09_containment_is_pointwise.

Theorem C09_offset_containment : forall s b,
  contains s b = true <-> start s <= b <= end_ s.
Proof. intros. unfold contains. now rewrite andb_true_iff, !Nat.leb_le. Qed.
Print Assumptions C09_offset_containment.

Theorem C09_merge_is_smallest : forall s t, well_formed s -> well_formed t ->
  well_formed (merge s t)
  /\ contains_span (merge s t) s = true /\ contains_span (merge s t) t = true
  /\ forall u, contains_span u s = true -> contains_span u t = true ->
       contains_span u (merge s t) = true.
Proof.
  unfold well_formed, contains_span, contains, merge; simpl. intros s t Hs Ht.
  rewrite !andb_true_iff, !Nat.leb_le. repeat split; try lia.
  intros u. rewrite !andb_true_iff, !Nat.leb_le. lia.
Qed.
Print Assumptions C09_merge_is_smallest.

Theorem C09_merge_algebra : forall s t u,
  merge s t = merge t s /\ merge s (merge t u) = merge (merge s t) u /\ merge s s = s.
Proof. intros [a b] [c d] [e f]. unfold merge; simpl. repeat split; f_equal; lia. Qed.
Print Assumptions C09_merge_algebra.

(** A span "spans an entire line" when it begins where a line begins and is
    followed by a newline (so it may cover several whole lines). *)
Theorem C09_spans_entire_line : forall src s,
  spans_entire_line (new src) s = true
  <-> begins_line src (start s) /\ begins_line src (end_ s + 1).
Proof. exact spans_entire_line_spec. Qed.
Print Assumptions C09_spans_entire_line.

Example C09_example :
  merge (Span 3 5) (Span 8 9) = Span 3 9
  /\ spans_entire_line (new [97; 10; 98; 99; 10]%N) (Span 2 4) = true
  /\ spans_entire_line (new [97; 10; 98; 99; 10]%N) (Span 2 3) = false.
Proof. vm_compute. auto. Qed.
