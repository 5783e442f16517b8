(** Proofs about the tables of the command line. *)
From Coq Require Import String Arith NArith List Bool Permutation Sorting.Sorted Lia.
From Coq Require Import ZifyBool ZifyNat ZifyN.
From Verif Require Import Text TextProofs Version VersionSpec ManifestText ManifestTextSpec ManifestTextProofs TextTable TextTableSpec.
Import ListNotations.
Local Open Scope list_scope.
Local Open Scope nat_scope.

(** ** Widths *)
Lemma len_printable s : printable s -> len s = length s.
Proof.
  induction 1 as [|c s C F IH]; [reflexivity|]. change (len (c :: s)) with (bytes_of c + len s). rewrite IH. unfold bytes_of.
  destruct (c <? 128)%N eqn:B; [reflexivity|]. lia.
Qed.
Lemma widen_nth row : forall ws i w, nth_error (widen ws row) i = Some w -> exists w0, nth_error ws i = Some w0 /\ w0 <= w
  /\ (forall c, nth_error row i = Some c -> len c <= w) /\ (w = w0 \/ exists c, nth_error row i = Some c /\ w = len c).
Proof.
  induction row as [|c row IH]; intros ws i w E.
  - exists w. assert (nth_error ws i = Some w) as W by (destruct ws; exact E). split; [exact W|]. split; [lia|]. split; [|left; reflexivity].
    intros c C. destruct i; discriminate C.
  - destruct ws as [|v ws]; [destruct i; discriminate E|]. destruct i as [|i]; cbn in E |- *.
    + injection E as <-. exists v. split; [reflexivity|]. split; [lia|]. split; [intros ? C; injection C as <-; lia|].
      destruct (Nat.max_spec v (len c)) as [(_ & ->)|(_ & ->)]; [right; exists c; split; reflexivity|left; reflexivity].
    + apply IH, E.
Qed.
Lemma widths_nth data : forall ws i w, nth_error (fold_left widen data ws) i = Some w -> exists w0, nth_error ws i = Some w0 /\ w0 <= w
  /\ (forall row c, In row data -> nth_error row i = Some c -> len c <= w)
  /\ (w = w0 \/ exists row c, In row data /\ nth_error row i = Some c /\ w = len c).
Proof.
  induction data as [|row data IH]; intros ws i w E; cbn in E.
  - exists w. split; [exact E|]. split; [lia|]. split; [intros ? ? []|left; reflexivity].
  - destruct (IH _ _ _ E) as (v & V & L & A & B). destruct (widen_nth _ _ _ _ V) as (w0 & W0 & L0 & A0 & B0).
    exists w0. split; [exact W0|]. split; [lia|]. split.
    + intros r c [<-|I] N; [specialize (A0 c N); lia|exact (A r c I N)].
    + destruct B as [->|(r & c & I & N & ->)]; [|right; exists r, c; split; [right; exact I|split; [exact N|reflexivity]]].
      destruct B0 as [->|(c & N & ->)]; [left; reflexivity|right; exists row, c; split; [left; reflexivity|split; [exact N|reflexivity]]].
Qed.
Lemma column_widths_nth headers data i w : nth_error (column_widths headers data) i = Some w ->
  (forall row c, In row (headers :: data) -> nth_error row i = Some c -> len c <= w)
  /\ exists row c, In row (headers :: data) /\ nth_error row i = Some c /\ w = len c.
Proof.
  intro E. destruct (widths_nth _ _ _ _ E) as (w0 & W & L & A & B). rewrite nth_error_map in W.
  destruct (nth_error headers i) as [h|] eqn:H; cbn in W; [injection W as <-|discriminate]. split.
  - intros row c [<-|I] N; [congruence || (assert (c = h) by congruence; subst; exact L)|exact (A row c I N)].
  - destruct B as [->|(row & c & I & N & ->)]; [exists headers, h|exists row, c]; cbn; auto.
Qed.
Lemma widen_length row : forall ws, length (widen ws row) = length ws.
Proof. induction row as [|c row IH]; intros [|w ws]; cbn; auto. Qed.
Lemma column_widths_length headers data : length (column_widths headers data) = length headers.
Proof.
  unfold column_widths. rewrite <- (map_length len headers). generalize (map len headers).
  induction data as [|row data IH]; intro ws; cbn; [reflexivity|]. rewrite IH. apply widen_length.
Qed.

(** ** Nothing panics *)
Definition fits (c : text * nat) : Prop := len (fst c) <= snd c.
Lemma line_some shown columns cells : Forall fits cells -> forall index, exists s, line shown columns index cells = Some s.
Proof.
  induction 1 as [|(c, w) cells L F IH]; intro index; cbn [line]; [eauto|]. destruct (IH (S index)) as (s & ->).
  unfold padding. destruct (w <? len c) eqn:B; [unfold fits in L; cbn [fst snd] in L; apply Nat.ltb_lt in B; lia|]. destruct (index <? columns - 1); eexists; reflexivity.
Qed.
Lemma combine_fits row ws : (forall i w c, nth_error ws i = Some w -> nth_error row i = Some c -> len c <= w) -> Forall fits (combine row ws).
Proof.
  revert ws. induction row as [|c row IH]; intros [|w ws] H; cbn; try constructor.
  - exact (H 0 w c eq_refl eq_refl).
  - apply IH. intros i v d V D. exact (H (S i) v d V D).
Qed.
Lemma rows_fit headers data row : In row (headers :: data) -> Forall fits (combine row (column_widths headers data)).
Proof. intro I. apply combine_fits. intros i w c W C. destruct (column_widths_nth _ _ _ _ W) as (A & _). exact (A row c I C). Qed.
Lemma body_some columns ws data : (forall row, In row data -> Forall fits (combine row ws)) -> exists s, body columns ws data = Some s.
Proof.
  induction data as [|row data IH]; intro F; cbn; [eauto|]. destruct (line_some (fun c => c) columns _ (F row (or_introl eq_refl)) 0) as (l & ->).
  destruct IH as (s & ->); [intros r I; apply F; right; exact I|]. eauto.
Qed.
Lemma space_table_some headers data : exists s, space_table headers data = Some s.
Proof.
  unfold space_table. destruct (line_some (fun c => c) (length headers) _ (rows_fit headers data headers (or_introl eq_refl)) 0) as (a & ->).
  destruct (line_some hyphens (length headers) _ (rows_fit headers data headers (or_introl eq_refl)) 0) as (b & ->).
  destruct (body_some (length headers) (column_widths headers data) data) as (c & ->); [intros row I; apply rows_fit; right; exact I|]. eauto.
Qed.

(** ** Lines *)
Fixpoint starts (p : nat) (ws : list nat) : list nat := match ws with [] => [] | w :: ws => p :: starts (p + w + 2) ws end.
Lemma starts_nth ws : forall p i a b, nth_error (starts p ws) i = Some a -> nth_error (starts p ws) (S i) = Some b ->
  exists w, nth_error ws i = Some w /\ b = a + w + 2.
Proof.
  induction ws as [|w ws IH]; intros p i a b A B; [destruct i; discriminate A|]. destruct i as [|i].
  - cbn in A, B. injection A as <-. exists w. split; [reflexivity|]. destruct ws; cbn in B; [discriminate|]. injection B as <-. reflexivity.
  - exact (IH (p + w + 2) i a b A B).
Qed.
Lemma words_prefix a : Forall (fun c => (33 <= c < 127)%N) a -> forall w rest, words_from w (a ++ rest) = words_from (w ++ a) rest.
Proof.
  induction 1 as [|c a C F IH]; intros w rest; [rewrite app_nil_r; reflexivity|]. cbn.
  destruct (N.eqb_spec c 32) as [->|_]; [lia|]. rewrite IH, <- app_assoc. reflexivity.
Qed.
Lemma words_spaces n rest : words_from [] (repeat 32%N n ++ rest) = words_from [] rest.
Proof. induction n; cbn; auto. Qed.
Lemma words_cell a n rest : one_word a -> words (a ++ repeat 32%N (S n) ++ rest) = a :: words rest.
Proof.
  intros (N & F). unfold words. rewrite words_prefix by exact F. cbn. destruct a as [|c a]; [congruence|]. f_equal. apply words_spaces.
Qed.
Lemma words_last a : one_word a -> words a = [a].
Proof. intros (N & F). unfold words. rewrite <- (app_nil_r a) at 1. rewrite words_prefix by exact F. destruct a; [congruence|reflexivity]. Qed.
Lemma repeat_spaces n : Forall (Logic.eq 32%N) (repeat 32%N n).
Proof. induction n; cbn; auto. Qed.

Lemma line_laid shown columns cells : forall ws index p, cells <> [] -> length cells = length ws -> columns = index + length cells ->
  Forall fits (combine cells ws) -> Forall (fun c => length (shown c) = len c) cells ->
  exists s, line shown columns index (combine cells ws) = Some ((if 0 <? index then str "  " else []) ++ s)
    /\ laid_out p (starts p ws) (map shown cells) s
    /\ (Forall one_word (map shown cells) -> words s = map shown cells).
Proof.
  induction cells as [|c cells IH]; intros ws index p N L K F H; [congruence|]. destruct ws as [|w ws]; [discriminate L|].
  cbn [combine] in F |- *. inversion F as [|? ? F1 F2]; subst. inversion H as [|? ? H1 H2]; subst. unfold fits in F1. cbn [fst snd] in F1.
  cbn [line length]. destruct cells as [|d cells].
  - destruct ws; [|discriminate L]. cbn [combine line length]. replace (index <? index + 1 - 1) with false by lia.
    exists (shown c). rewrite !app_nil_r. split; [reflexivity|]. split; [constructor|]. intro W. inversion W; subst. apply words_last. assumption.
  - destruct ws as [|v ws]; [discriminate L|].
    destruct (IH (v :: ws) (S index) (p + w + 2)) as (s & E & O & W); [discriminate|cbn in *; lia|cbn; lia|exact F2|exact H2|].
    cbn [length] in E |- *. rewrite E. replace (index <? index + S (S (length cells)) - 1) with true by lia.
    unfold padding. replace (w <? len c) with false by lia. change (0 <? S index) with true. cbn iota.
    exists (shown c ++ repeat 32%N (w - len c + 2) ++ s). split; [|split].
    + rewrite repeat_app. rewrite <- !app_assoc. reflexivity.
    + cbn [starts map] in O |- *. apply a_cell; [rewrite repeat_length; lia|apply repeat_spaces|exact O].
    + cbn [map]. intro A. inversion A as [|? ? A1 A2]; subst. replace (w - len c + 2) with (S (w - len c + 1)) by lia.
      rewrite words_cell by exact A1. f_equal. apply W, A2.
Qed.
Lemma laid_out_chars (P : N -> Prop) p st cells s : P 32%N -> laid_out p st cells s -> Forall (Forall P) cells -> Forall P s.
Proof.
  intros S. induction 1 as [p c|p q st c cells sp s E F O IH]; intro A; inversion A; subst; [assumption|].
  apply Forall_app. split; [assumption|]. apply Forall_app. split; [|auto]. eapply Forall_impl; [|exact F]. intros ? <-. exact S.
Qed.

(** ** Tables *)
Definition well (headers : list text) (row : list text) : Prop := length row = length headers /\ Forall printable row.
Lemma body_lines columns ws : forall data, (forall row, In row data -> Forall fits (combine row ws)) -> ws <> [] -> columns = length ws ->
  (forall row, In row data -> length row = length ws /\ Forall printable row) ->
  exists ls, body columns ws data = Some (lines ls) /\ Forall2 (laid_out 0 (starts 0 ws)) data ls
    /\ Forall2 (fun row s => Forall one_word row -> words s = row) data ls.
Proof.
  intros data F N K W. induction data as [|row data IH]; cbn.
  - exists []. repeat split; constructor.
  - destruct IH as (ls & -> & A & B); [intros; apply F; right; assumption|intros; apply W; right; assumption|].
    destruct (W row (or_introl eq_refl)) as (L & P).
    destruct (line_laid (fun c => c) columns row ws 0 0) as (s & E & O & R).
    + intros ->. destruct ws; [congruence|discriminate L].
    + exact L.
    + rewrite L. exact K.
    + exact (F row (or_introl eq_refl)).
    + eapply Forall_impl; [|exact P]. intros c C. symmetry. apply len_printable, C.
    + rewrite map_id in O, R. rewrite E. exists (s :: ls). split; [|split; constructor; assumption].
      unfold lines. cbn. rewrite <- app_assoc. reflexivity.
Qed.
Lemma hyphens_underline h : printable h -> hyphens h = underline h.
Proof.
  intro P. unfold hyphens, underline. rewrite len_printable by exact P. clear P. induction h; cbn; congruence.
Qed.
Theorem table_lines headers data : headers <> [] -> Forall printable headers -> Forall (well headers) data ->
  exists st ls, space_table headers data = Some (lines ls)
    /\ Forall2 (laid_out 0 st) (headers :: map underline headers :: data) ls
    /\ close st (headers :: data)
    /\ Forall2 (fun row s => Forall one_word row -> words s = row) (headers :: map underline headers :: data) ls.
Proof.
  intros N P W. set (ws := column_widths headers data).
  assert (length ws = length headers) as L by apply column_widths_length.
  assert (Forall fits (combine headers ws)) as F by (apply rows_fit; left; reflexivity).
  assert (map hyphens headers = map underline headers) as U.
  { apply map_ext_in. intros h I. apply hyphens_underline. rewrite Forall_forall in P. apply P, I. }
  rewrite Forall_forall in W.
  destruct (body_lines (length headers) ws data) as (ls & B & O & R); [intros row I; apply rows_fit; right; exact I| |symmetry; exact L| |].
  { intro E. rewrite E in L. destruct headers; [congruence|discriminate L]. }
  { intros row I. rewrite L. apply W, I. }
  destruct (line_laid (fun c => c) (length headers) headers ws 0 0 N (eq_sym L) eq_refl F) as (a & EA & OA & RA).
  { eapply Forall_impl; [|exact P]. intros c C. symmetry. apply len_printable, C. }
  destruct (line_laid hyphens (length headers) headers ws 0 0 N (eq_sym L) eq_refl F) as (b & EB & OB & RB).
  { apply Forall_forall. intros c _. apply repeat_length. }
  rewrite map_id in OA, RA.
  change (laid_out 0 (starts 0 ws) (@map text text hyphens headers) b) in OB.
  change (Forall one_word (@map text text hyphens headers) -> words b = @map text text hyphens headers) in RB.
  assert (@map text text hyphens headers = map underline headers) as U' by exact U. rewrite U' in OB, RB. cbn in EA, EB.
  exists (starts 0 ws), (a :: b :: ls). split; [|split; [|split]].
  - unfold space_table. fold ws. rewrite EA, EB, B. unfold lines. cbn. rewrite <- !app_assoc. reflexivity.
  - repeat (constructor; [assumption|]). exact O.
  - intros i p q A C. destruct (starts_nth _ _ _ _ _ A C) as (w & V & ->). destruct (column_widths_nth _ _ _ _ V) as (X & row & c & I & M & ->).
    assert (forall row c, In row (headers :: data) -> nth_error row i = Some c -> printable c) as Q.
    { intros r d J K. apply nth_error_In in K. destruct J as [<-|J]; [rewrite Forall_forall in P; apply P, K|].
      destruct (W r J) as (_ & G). rewrite Forall_forall in G. apply G, K. }
    split.
    + intros r d J K. specialize (X r d J K). rewrite (len_printable d) in X by exact (Q r d J K). lia.
    + exists row, c. split; [exact I|]. split; [exact M|]. rewrite (len_printable c) by exact (Q row c I M). reflexivity.
  - repeat (constructor; [assumption|]). exact R.
Qed.

(** ** Reading *)
Lemma lines_from_line s : ~ In 10%N s -> forall l rest, lines_from l (s ++ 10%N :: rest) = (l ++ s) :: lines_from [] rest.
Proof.
  induction s as [|c s IH]; intros N l rest; cbn; [rewrite app_nil_r; reflexivity|].
  destruct (N.eqb_spec c 10) as [->|_]; [exfalso; apply N; left; reflexivity|]. rewrite IH by (intro I; apply N; right; exact I).
  rewrite <- app_assoc. reflexivity.
Qed.
Lemma lines_from_lines ls : Forall (fun s => ~ In 10%N s) ls -> lines_from [] (lines ls) = ls.
Proof.
  induction 1 as [|s ls N F IH]; [reflexivity|]. change (lines (s :: ls)) with ((s ++ [10%N]) ++ lines ls). rewrite <- app_assoc. cbn [app].
  rewrite lines_from_line by exact N. cbn. f_equal. exact IH.
Qed.
Lemma one_word_printable s : one_word s -> printable s.
Proof. intros (_ & F). eapply Forall_impl; [|exact F]. cbn. lia. Qed.
Lemma underline_word h : one_word h -> one_word (underline h).
Proof.
  intros (N & _). split; [destruct h; [congruence|discriminate]|]. unfold underline. apply Forall_forall. intros c I.
  apply in_map_iff in I as (? & <- & _). lia.
Qed.
Theorem table_reads headers data : headers <> [] -> Forall one_word headers ->
  Forall (fun row => length row = length headers /\ Forall one_word row) data ->
  exists s, space_table headers data = Some s /\ read s = Some (headers, data).
Proof.
  intros N P W. destruct (table_lines headers data N) as (st & ls & E & O & _ & R).
  { eapply Forall_impl; [|exact P]. apply one_word_printable. }
  { eapply Forall_impl; [|exact W]. intros row (L & F). split; [exact L|]. eapply Forall_impl; [|exact F]. apply one_word_printable. }
  exists (lines ls). split; [exact E|]. unfold read.
  assert (Forall (Forall one_word) (headers :: map underline headers :: data)) as A.
  { constructor; [exact P|]. constructor; [|eapply Forall_impl; [|exact W]; intros row (_ & F); exact F].
    apply Forall_map. eapply Forall_impl; [|exact P]. apply underline_word. }
  rewrite lines_from_lines.
  - assert (map words ls = headers :: map underline headers :: data) as M; [|rewrite M; reflexivity].
    revert A. clear - R. induction R as [|row s rows ls H R IH]; intro A; [reflexivity|]. inversion A; subst. cbn. rewrite H by assumption. f_equal.
    apply IH. assumption.
  - revert A. clear - O. induction O as [|row s rows ls H O IH]; intro A; [constructor|]. inversion A as [|? ? A1 A2]; subst.
    constructor; [|apply IH, A2]. assert (Forall (fun c => c <> 10%N) s) as C; [|rewrite Forall_forall in C; intro I; exact (C _ I eq_refl)].
    eapply laid_out_chars; [discriminate|exact H|]. eapply Forall_impl; [|exact A1]. intros c (_ & F). eapply Forall_impl; [|exact F]. cbn. lia.
Qed.

(** ** Versions *)
Definition visible (s : text) : Prop := Forall (fun c => (33 <= c < 127)%N) s.
Lemma visible_app a b : visible a -> visible b -> visible (a ++ b).
Proof. intros. apply Forall_app. split; assumption. Qed.
Lemma decimal_visible n : visible (decimal n).
Proof. eapply Forall_impl; [|apply decimal_digits]. cbn. intros c. unfold is_digit. lia. Qed.
Lemma visible_words s : alphanumeric s -> visible s.
Proof. apply Forall_impl. intros c. unfold is_alphanumeric, is_digit, is_upper, is_lower. lia. Qed.
Ltac visible_str := repeat constructor; cbn; lia.
Lemma hyphenated_visible s : hyphenated s -> visible s.
Proof.
  induction 1 as [s (_ & A & _)|s r (_ & A & _) H IH]; [apply visible_words, A|].
  apply visible_app; [apply visible_words, A|]. apply visible_app; [visible_str|exact IH].
Qed.
Lemma dotted_visible s : dotted s -> visible s.
Proof.
  induction 1 as [s A _|s r A _ H IH]; [apply visible_words, A|].
  apply visible_app; [apply visible_words, A|]. apply visible_app; [visible_str|exact IH].
Qed.
Lemma identifier_visible i : legal_identifier i -> visible (show_identifier i).
Proof. destruct i as [n|s]; cbn; [intros _; apply decimal_visible|]. intros [H _]. apply hyphenated_visible, H. Qed.
Lemma show_dotted_visible l : Forall legal_identifier l -> visible (show_dotted l).
Proof.
  induction 1 as [|i l I F IH]; [constructor|]. destruct l as [|j l].
  - apply identifier_visible, I.
  - change (show_dotted (i :: j :: l)) with (show_identifier i ++ str "." ++ show_dotted (j :: l)).
    apply visible_app; [apply identifier_visible, I|]. apply visible_app; [visible_str|exact IH].
Qed.
Lemma show_word v : legal_version v -> one_word (show v).
Proof.
  intros (_ & _ & _ & P & B). split.
  - unfold show. intro E. apply app_eq_nil in E as (_ & E). discriminate E.
  - unfold show. repeat (apply visible_app; [first [apply decimal_visible|visible_str|idtac]|]).
    + destruct (is_pre v); [|constructor]. apply visible_app; [visible_str|apply show_dotted_visible, P].
    + destruct (build v) as [b|]; [|constructor]. apply visible_app; [visible_str|]. destruct B as (_ & B). apply dotted_visible, B.
Qed.

(** ** Reports *)
Lemma format_perm d : Permutation (map row_of d) (format_versions d).
Proof. apply sorted_by_perm. Qed.
Lemma format_same d d' : NoDup (map fst d) -> Permutation d d' -> format_versions d = format_versions d'.
Proof.
  intros N P. apply sorted_by_unique; [apply Permutation_map, P|]. intros a b A B E.
  apply in_map_iff in A as (x & <- & A). apply in_map_iff in B as (y & <- & B). cbn in E.
  assert (x = y) as ->; [|reflexivity]. clear P. induction d as [|z d IH]; [destruct A|]. inversion N as [|? ? N1 N2]; subst.
  destruct A as [->|A], B as [->|B]; [reflexivity| | |auto]; exfalso; apply N1; [rewrite E|rewrite <- E]; apply in_map; assumption.
Qed.
Lemma format_by_name d : NoDup (map fst d) -> by_name (format_versions d).
Proof.
  intro N. assert (NoDup (map (hd []) (format_versions d))) as K.
  { eapply Permutation_NoDup; [apply Permutation_map, format_perm|]. rewrite map_map. exact N. }
  pose proof (sorted_by_order (fun row : list text => hd [] row) (map row_of d)) as O.
  change (sorted_by (fun row : list text => hd [] row) (map row_of d)) with (format_versions d) in O.
  revert K O. generalize (format_versions d). clear. intros l K O. induction O as [|row l O IH F]; [constructor|].
  inversion K as [|? ? K1 K2]; subst. constructor; [apply IH, K2|]. apply Forall_forall. intros r I. rewrite Forall_forall in F.
  specialize (F r I). unfold before, le in F. destruct (text_cmp (hd [] row) (hd [] r)) eqn:C; [|reflexivity|congruence].
  exfalso. apply K1. apply cmp_eq in C. rewrite C. apply in_map, I.
Qed.
Lemma diff_headers_words : Forall one_word diff_headers.
Proof. repeat constructor; try discriminate. Qed.
Lemma updates_read d : Forall an_update d ->
  exists s, pretty_print_version_updates d = Some s /\ read s = Some (diff_headers, format_versions d).
Proof.
  intro G. apply table_reads; [discriminate|exact diff_headers_words|]. eapply Permutation_Forall; [apply format_perm|].
  apply Forall_map. eapply Forall_impl; [|exact G]. intros (n & v & w) (A & B & C). split; [reflexivity|].
  constructor; [exact A|]. constructor; [apply show_word, B|]. constructor; [apply show_word, C|constructor].
Qed.
