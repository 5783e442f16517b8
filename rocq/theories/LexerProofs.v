(** What the lexer does on the characters ahead of it. *)
From Coq Require Import String NArith ZArith Bool List Lia ZifyBool ZifyNat ZifyN.
From Verif Require Import Text TextProofs Strings StringsSpec SrcSpan Lexer LexerSpec.
Import ListNotations.
Open Scope N_scope.

(** ** The newline handler *)

(** Ends of line become newlines. *)
Fixpoint collapse (l : list (N * N)) : list (N * N) :=
  match l with
  | [] => []
  | (i, c) :: l' =>
      if c =? 13 then
        match l' with
        | (j, d) :: l'' => if d =? 10 then (i, 10) :: collapse l'' else (i, 10) :: collapse l'
        | [] => [(i, 10)]
        end
      else (i, c) :: collapse l'
  end.

Definition olist {A} (o : option A) : list A := match o with Some a => [a] | None => [] end.
Definition h_raw (h : handler) : list (N * N) := (olist (h_char0 h) ++ olist (h_char1 h) ++ h_source h)%list.
Definition h_ok (h : handler) : Prop :=
  (h_char0 h = None -> h_char1 h = None) /\ (h_char1 h = None -> h_source h = []).
Definition h_list (h : handler) : list (N * N) := collapse (h_raw h).

Lemma shift_raw h : h_ok h ->
  fst (shift h) = hd_error (h_raw h) /\ h_raw (snd (shift h)) = tl (h_raw h) /\ h_ok (snd (shift h)).
Proof.
  destruct h as [s c0 c1]; unfold h_ok, h_raw, shift; cbn.
  intros [A B]. destruct c0 as [c0|]; cbn; [|rewrite (A eq_refl) in *; cbn].
  - split; [reflexivity|]. destruct c1 as [c1|]; cbn; [|rewrite (B eq_refl); cbn; auto].
    destruct s; cbn; split; auto; split; intros; try discriminate; auto.
  - rewrite (B eq_refl). cbn. auto.
Qed.

Lemma handler_next_spec h : h_ok h ->
  fst (handler_next h) = hd_error (h_list h) /\ h_list (snd (handler_next h)) = tl (h_list h)
  /\ h_ok (snd (handler_next h)) /\ (length (h_source (snd (handler_next h))) <= length (h_source h))%nat.
Proof.
  intros H.
  assert (L : forall h, (length (h_source (snd (shift h))) <= length (h_source h))%nat).
  { intros g. unfold shift; cbn. destruct (h_source g); cbn; lia. }
  unfold handler_next, h_list.
  destruct h as [s [[i c]|] c1]; cbn [h_char0 h_char1 h_source].
  - change carriage_return with 13.
    destruct (N.eqb_spec c 13) as [->|N].
    + destruct c1 as [[j d]|].
      * change newline with 10. destruct (N.eqb_spec d 10) as [->|N'].
        -- unfold shift, h_raw, h_ok; cbn.
           split; [reflexivity|]. destruct s as [|a [|b s]]; cbn; repeat split; auto; try discriminate; try lia.
        -- destruct (shift_raw {| h_source := s; h_char0 := Some (i, 10); h_char1 := Some (j, d) |}) as (A & B & C).
           { unfold h_ok; cbn. split; intros; discriminate. }
           rewrite A, B. unfold h_raw in *; cbn. apply N.eqb_neq in N'. rewrite N'. cbn.
           repeat split; auto. apply C. apply C. destruct s; cbn; lia.
      * destruct H as [_ H]. cbn in H. rewrite (H eq_refl) in *. unfold shift, h_raw, h_ok; cbn. auto.
    + pose proof (shift_raw _ H) as (A & B & C). rewrite A, B. unfold h_raw; cbn.
      apply N.eqb_neq in N. rewrite N. cbn. repeat split; auto. apply C. apply C. destruct s; cbn; lia.
  - pose proof (shift_raw _ H) as (A & B & C). rewrite A, B.
    destruct H as [H1 H2]; cbn in *. rewrite (H1 eq_refl) in *. rewrite (H2 eq_refl) in *.
    unfold h_raw; cbn. repeat split; auto.
Qed.

Lemma collapse_length l : (length (collapse l) <= length l)%nat.
Proof.
  remember (length l) as n eqn:E. assert (L : (length l <= n)%nat) by lia. clear E.
  revert l L. induction n as [|n IH]; intros [|[i c] l] L; cbn in *; try lia.
  destruct (c =? 13); [|cbn; specialize (IH l); lia].
  destruct l as [|[j d] l]; cbn in *; [lia|].
  destruct (d =? 10); cbn; [specialize (IH l); lia|].
  specialize (IH ((j, d) :: l)); cbn in *. lia.
Qed.
Lemma h_list_length h : (length (h_list h) <= 2 + length (h_source h))%nat.
Proof.
  unfold h_list. pose proof (collapse_length (h_raw h)).
  unfold h_raw in *. rewrite !app_length in *. destruct (h_char0 h), (h_char1 h); cbn in *; lia.
Qed.

(** ** What the lexer sees *)
Definition pos (l : list (N * N)) (e : N) : N := match l with (p, _) :: _ => p | [] => e end.

Definition sees (x : lexer) (l : list (N * N)) (e : N) : Prop :=
  h_ok (chars x) /\
  match l with
  | [] => char0 x = None /\ char1 x = None /\ h_list (chars x) = [] /\ location0 x = e /\ location1 x = e + 1
  | [(p, c)] =>
      char0 x = Some c /\ char1 x = None /\ h_list (chars x) = [] /\ location0 x = p /\ location1 x = p + 1
      /\ e = p + 1
  | (p, c) :: (q, d) :: r =>
      char0 x = Some c /\ char1 x = Some d /\ h_list (chars x) = r /\ location0 x = p /\ location1 x = q
      /\ e = fst (last l (0, 0)) + 1
  end.

Lemma sees_char0 x l e : sees x l e -> char0 x = option_map snd (hd_error l).
Proof. destruct l as [|[p c] [|[q d] r]]; intros [_ H]; cbn; tauto. Qed.
Lemma sees_char1 x l e : sees x l e -> char1 x = option_map snd (hd_error (tl l)).
Proof. destruct l as [|[p c] [|[q d] r]]; intros [_ H]; cbn; tauto. Qed.
Lemma sees_pos x l e : sees x l e -> location0 x = pos l e.
Proof. destruct l as [|[p c] [|[q d] r]]; intros [_ H]; cbn; tauto. Qed.
Lemma sees_left x l e : sees x l e -> (S (length l) < left x)%nat.
Proof.
  intros [_ H]. unfold left. pose proof (h_list_length (chars x)).
  destruct l as [|[p c] [|[q d] r]]; cbn in *; try lia.
  destruct H as (_ & _ & E & _). rewrite E in *. lia.
Qed.

Lemma next_some x p c l e : sees x ((p, c) :: l) e ->
  exists x', next_char x = (Ok (Some c), x') /\ sees x' l e /\ pending x' = pending x.
Proof.
  intros [HO H]. pose proof (handler_next_spec _ HO) as (A & B & C & _).
  unfold next_char. destruct (handler_next (chars x)) as [nx h']; cbn in A, B, C.
  destruct l as [|[q d] r].
  - destruct H as (H0 & H1 & H2 & H3 & H4 & ->). rewrite H2 in *; cbn in *.
    eexists. rewrite H0. split; [reflexivity|]. subst nx. unfold sees; cbn.
    rewrite H1. repeat split; auto; try apply C; lia.
  - destruct H as (H0 & H1 & H2 & H3 & H4 & HE). rewrite H2 in *; cbn in *.
    eexists. rewrite H0. split; [reflexivity|]. split; [|reflexivity].
    unfold sees; cbn. split; [exact C|]. subst nx.
    destruct r as [|[q' d'] r']; cbn in *.
    + repeat split; auto; lia.
    + repeat split; auto.
Qed.
Lemma next_none x e : sees x [] e ->
  exists x', next_char x = (Ok None, x') /\ sees x' [] (e + 1) /\ pending x' = pending x.
Proof.
  intros [HO H]. pose proof (handler_next_spec _ HO) as (A & B & C & _).
  unfold next_char. destruct (handler_next (chars x)) as [nx h']; cbn in A, B, C.
  destruct H as (H0 & H1 & H2 & H3 & H4). rewrite H2 in *; cbn in *.
  eexists. rewrite H0. split; [reflexivity|]. subst nx. unfold sees; cbn.
  rewrite H1. repeat split; auto; try apply C; lia.
Qed.

Lemma sees_pending x l e p : sees x l e -> sees (set_pending p x) l e.
Proof. destruct l as [|[? ?] [|[? ?] ?]]; intros H; exact H. Qed.

Ltac conj := repeat match goal with |- _ /\ _ => split end.

(** ** Running *)
Lemma bind_ok {A B} (m : M A) (k : A -> M B) x a x' : m x = (Ok a, x') -> bind m k x = k a x'.
Proof. intros H. unfold bind. rewrite H. reflexivity. Qed.
Lemma bind_err {A B} (m : M A) (k : A -> M B) x r x' : m x = (Err r, x') -> bind m k x = (Err r, x').
Proof. intros H. unfold bind. rewrite H. reflexivity. Qed.

Lemma run_char0 x l e : sees x l e -> get_char0 x = (Ok (option_map snd (hd_error l)), x).
Proof. intros H. unfold get_char0. rewrite (sees_char0 _ _ _ H). reflexivity. Qed.
Lemma run_char1 x l e : sees x l e -> get_char1 x = (Ok (option_map snd (hd_error (tl l))), x).
Proof. intros H. unfold get_char1. rewrite (sees_char1 _ _ _ H). reflexivity. Qed.
Lemma run_position x l e : sees x l e -> get_position x = (Ok (pos l e), x).
Proof. intros H. unfold get_position. rewrite (sees_pos _ _ _ H). reflexivity. Qed.
Lemma run_emit x l e t : sees x l e ->
  exists x', emit t x = (Ok tt, x') /\ sees x' l e /\ pending x' = (pending x ++ [t])%list.
Proof.
  intros H. eexists. split; [reflexivity|]. split; [|reflexivity].
  destruct l as [|[? ?] [|[? ?] ?]]; exact H.
Qed.

Ltac b0 := erewrite bind_ok by (eapply run_char0; eassumption); cbn [option_map hd_error snd fst].
Ltac b1 := erewrite bind_ok by (eapply run_char1; eassumption); cbn [option_map hd_error tl snd fst].
Ltac bp := erewrite bind_ok by (eapply run_position; eassumption); cbn [pos].
Ltac bl := erewrite bind_ok by reflexivity.
(** Step over the next character. *)
Ltac bn H :=
  let x' := fresh "x" in let R := fresh "R" in let S := fresh "S" in let P := fresh "P" in
  destruct (next_some _ _ _ _ _ H) as (x' & R & S & P); erewrite bind_ok by exact R; clear R.
Ltac be H :=
  match goal with
  | |- context [emit ?t ?x] =>
      let x' := fresh "x" in let R := fresh "R" in let S := fresh "S" in let P := fresh "P" in
      destruct (run_emit _ _ _ t H) as (x' & R & S & P); rewrite R; clear R
  | |- context [bind (emit ?t) ?k ?x] =>
      let x' := fresh "x" in let R := fresh "R" in let S := fresh "S" in let P := fresh "P" in
      destruct (run_emit _ _ _ t H) as (x' & R & S & P); erewrite bind_ok by exact R; clear R
  end.

(** ** Positions *)
Fixpoint placed (l : list (N * N)) (e : N) : Prop :=
  match l with
  | [] => True
  | (p, c) :: l' => (c < 128 -> c <> 10 -> pos l' e = p + 1) /\ p < pos l' e /\ placed l' e
  end.
Lemma placed_app a b e : placed (a ++ b) e -> placed b e.
Proof. induction a as [|[p c] a IH]; cbn; tauto. Qed.
Lemma placed_skipn n : forall l e, placed l e -> placed (skipn n l) e.
Proof. induction n as [|n IH]; intros [|[p c] l] e; cbn; auto. intros (_ & _ & H). auto. Qed.

(** The tokens of pieces, with positions from the characters ahead. *)
Fixpoint ahead (l : list (N * N)) (e : N) (ps : list piece) : list spanned :=
  match ps with
  | [] => []
  | Gap w :: ps => ahead (skipn (length w) l) e ps
  | Tok t w :: ps =>
      (pos l e, t, pos (skipn (length w) l) e) :: ahead (skipn (length w) l) e ps
  end.
Lemma ahead_app e ps : forall l qs,
  ahead l e (ps ++ qs) = (ahead l e ps ++ ahead (skipn (length (writing ps)) l) e qs)%list.
Proof.
  assert (S : forall n m (l : list (N * N)), skipn n (skipn m l) = skipn (m + n) l).
  { intros n m; induction m as [|m IH]; intros l; cbn; auto. destruct l; cbn; auto. destruct n; auto. }
  induction ps as [|[w|t w] ps IH]; intros l qs; cbn; auto.
  - rewrite IH, S. unfold writing. cbn. rewrite app_length. reflexivity.
  - rewrite IH, S. unfold writing. cbn. rewrite app_length. reflexivity.
Qed.

(** ** What a function that emits tokens does *)
Definition emits (o : outcome unit * lexer) (x : lexer) (l : list (N * N)) (e : N) (ps : list piece) (l' : list (N * N)) : Prop :=
  exists x' w,
    o = (Ok tt, x') /\ sees x' l' e /\ pending x' = (pending x ++ ahead l e ps)%list
    /\ l = (w ++ l')%list /\ map snd w = writing ps.
Definition locate (l : list (N * N)) (e : N) (kind : error_type) (before marked : text) : N * N :=
  let start := pos (skipn (length before) l) e in
  (start,
   match kind with
   | InvalidUnicodeEscape ExpectedHexDigitOrCloseBrace => start + 1
   | _ => pos (skipn (length before + length marked) l) e
   end).
Definition failing (r : error) (l : list (N * N)) (e : N) : Prop :=
  exists before marked,
    bad (error_kind r) before marked (map snd l)
    /\ (error_start r, error_end r) = locate l e (error_kind r) before marked.
Definition fails {A} (o : outcome A * lexer) (l : list (N * N)) (e : N) : Prop :=
  exists r x', o = (Err r, x') /\ failing r l e.

(** ** Classes of characters *)
Lemma digit_iff c : is_digit c = true <-> a_digit c.
Proof. unfold is_digit, a_digit, between. lia. Qed.
Lemma lower_iff c : is_lower c = true <-> a_lower c.
Proof. unfold is_lower, a_lower, between. lia. Qed.
Lemma upper_iff c : is_upper c = true <-> an_upper c.
Proof. unfold is_upper, an_upper, between. lia. Qed.
Lemma word_character_iff c : is_name_continuation (Some c) = true <-> a_word_character c.
Proof.
  cbn. unfold a_word_character, underscore, is_digit, is_lower, is_upper, a_digit, a_lower, an_upper, between. lia.
Qed.
Lemma not_word (l : list (N * N)) : is_name_continuation (option_map snd (hd_error l)) = false <-> ~ followed a_word_character (map snd l).
Proof.
  destruct l as [|[p c] l].
  - cbn. tauto.
  - cbn [hd_error option_map snd map followed]. rewrite <- word_character_iff.
    destruct (is_name_continuation (Some c)); intuition congruence.
Qed.

(** The longest prefix of characters. *)
Lemma take_prefix (p : N -> bool) (l : list (N * N)) :
  exists w l', l = (w ++ l')%list /\ Forall (fun c => p c = true) (map snd w)
    /\ match l' with (_, c) :: _ => p c = false | [] => True end.
Proof.
  induction l as [|[i c] l (w & l' & -> & F & E)].
  - exists [], []. cbn. auto.
  - destruct (p c) eqn:P.
    + exists ((i, c) :: w), l'. cbn. auto.
    + exists [], ((i, c) :: w ++ l')%list. cbn. auto.
Qed.

Lemma name_loop_spec w : forall fuel name x l e,
  sees x (w ++ l) e -> Forall (fun c => is_name_continuation (Some c) = true) (map snd w) ->
  is_name_continuation (option_map snd (hd_error l)) = false ->
  (length w < fuel)%nat ->
  exists x', name_loop fuel name x = (Ok (name ++ map snd w)%list, x') /\ sees x' l e /\ pending x' = pending x.
Proof.
  induction w as [|[i c] w IH]; intros fuel name x l e H F E L; (destruct fuel as [|fuel]; [cbn in L; lia|]); cbn [name_loop].
  - cbn [app] in H. b0. rewrite E. exists x. cbn. rewrite app_nil_r. auto.
  - cbn [app map snd] in *. inversion F as [|? ? F1 F2]; subst. b0. rewrite F1. bn H.
    destruct (IH fuel (name ++ [c])%list _ _ _ S F2 E) as (x' & R & S' & P').
    { cbn in L. lia. }
    exists x'. rewrite R. rewrite <- app_assoc. cbn. conj; auto. congruence.
Qed.

(** Keywords *)
Lemma keyword_iff w k : string_to_keyword w = Some k <-> w = keyword_text k.
Proof.
  split.
  - unfold string_to_keyword. intros H.
    repeat match type of H with
    | (if text_eqb w ?t then _ else _) = _ =>
        destruct (text_eqb w t) eqn:?; [injection H as <-; apply text_eqb_eq; assumption|]
    end. discriminate.
  - intros ->. destruct k; reflexivity.
Qed.

Lemma word_characters_bool w : Forall a_word_character w <-> Forall (fun c => is_name_continuation (Some c) = true) w.
Proof. rewrite !Forall_forall. setoid_rewrite word_character_iff. tauto. Qed.

(** A word, from its first character. *)
Lemma names_taken x p c l e :
  sees x ((p, c) :: l) e -> a_word_character c ->
  exists w l' x',
    l = (w ++ l')%list /\ Forall a_word_character (map snd w) /\ ~ followed a_word_character (map snd l')
    /\ name_loop (left x) [] x = (Ok (c :: map snd w)%list, x') /\ sees x' l' e /\ pending x' = pending x.
Proof.
  intros H C.
  destruct (take_prefix (fun c => is_name_continuation (Some c)) l) as (w & l' & -> & F & E).
  assert (E' : is_name_continuation (option_map snd (hd_error l')) = false).
  { destruct l' as [|[q d] l']; [reflexivity|exact E]. }
  destruct (name_loop_spec ((p, c) :: w) (left x) [] x l' e H) as (x' & R & S & P).
  - cbn. constructor; [apply word_character_iff; exact C|exact F].
  - exact E'.
  - pose proof (sees_left _ _ _ H) as Q. cbn [length] in *. rewrite app_length in Q. unfold left in *. lia.
  - exists w, l', x'. split; [reflexivity|]. split; [apply word_characters_bool; exact F|].
    split; [apply not_word; exact E'|]. auto.
Qed.

(** [lex_name] and [lex_upname] *)
Lemma lex_name_spec x p c l e :
  sees x ((p, c) :: l) e -> is_name_start c = true ->
  exists t w l' x',
    l = (w ++ l')%list /\ word t (c :: map snd w) /\ ~ followed a_word_character (map snd l')
    /\ lex_name x = (Ok (p, t, pos l' e), x') /\ sees x' l' e /\ pending x' = pending x.
Proof.
  intros H C. unfold is_name_start, underscore in C.
  assert (C' : c = 95 \/ a_lower c).
  { apply orb_true_iff in C as [C|C]; [left; lia|right; apply lower_iff; exact C]. }
  destruct (names_taken x p c l e H) as (w & l' & x' & -> & F & E & R & S & P).
  { unfold a_word_character. tauto. }
  unfold lex_name. bp. bl. erewrite bind_ok by exact R. bp.
  destruct (string_to_keyword (c :: map snd w)) as [k|] eqn:K.
  - apply keyword_iff in K. exists (Keyword k), w, l', x'. rewrite K.
    conj; auto. constructor.
  - destruct (starts_with (str "_") (c :: map snd w)) eqn:D.
    + apply starts_with_spec in D as (r & D). injection D as -> D.
      exists (DiscardName (95 :: map snd w)), w, l', x'. conj; auto. constructor; exact F.
    + exists (Name (c :: map snd w)), w, l', x'. conj; auto. constructor; auto.
      * destruct C' as [->|C']; [|exact C'].
        exfalso. assert (starts_with (str "_") (95 :: map snd w) = true); [|congruence].
        apply starts_with_spec. exists (map snd w). reflexivity.
      * intros k Q. symmetry in Q. apply keyword_iff in Q. congruence.
Qed.

Lemma lex_upname_spec x p c l e :
  sees x ((p, c) :: l) e -> is_upname_start c = true ->
  exists w l' x',
    l = (w ++ l')%list /\ Forall a_word_character (map snd w) /\ ~ followed a_word_character (map snd l')
    /\ lex_upname x = (Ok (p, UpName (c :: map snd w), pos l' e), x') /\ sees x' l' e /\ pending x' = pending x.
Proof.
  intros H C. apply upper_iff in C.
  destruct (names_taken x p c l e H) as (w & l' & x' & -> & F & E & R & S & P).
  { unfold a_word_character. tauto. }
  unfold lex_upname. bp. bl. erewrite bind_ok by exact R. bp.
  destruct (string_to_keyword (c :: map snd w)) as [k|] eqn:K.
  - exfalso. apply keyword_iff in K. unfold an_upper, between in C.
    destruct k; injection K as K _; subst c; lia.
  - exists w, l', x'. conj; auto.
Qed.

(** ** Digits *)
Lemma digit_of_radix_iff radix c : radix = 2 \/ radix = 8 \/ radix = 10 \/ radix = 16 ->
  digit_of_radix radix c = true <-> a_digit_of radix c.
Proof.
  intros R. unfold digit_of_radix, a_digit_of, digit_in, a_digit, between, is_hexdigit, is_digit. split.
  - intros H. exists (hex_digit_value c). unfold hex_digit_value.
    destruct R as [->|[->|[->| ->]]]; cbn [N.leb N.compare Pos.compare Pos.compare_cont] in H;
      destruct (N.leb_spec c 57); try destruct (N.leb_spec c 70); lia.
  - intros (d & L & D). destruct R as [->|[->|[->| ->]]]; cbn [N.leb N.compare Pos.compare Pos.compare_cont]; lia.
Qed.
Lemma digit_in_value radix c d : radix <= 16 -> digit_in radix d c -> digit_value c = d.
Proof.
  unfold digit_in, a_digit, between, digit_value, hex_digit_value. intros R (L & H).
  destruct (N.leb_spec c 57); [lia|]. destruct (N.leb_spec c 70); lia.
Qed.
Lemma digit_in_bounds radix c d : digit_in radix d c -> 48 <= c /\ c <> 95.
Proof. unfold digit_in, a_digit, between. lia. Qed.

Definition a_radix (radix : N) : Prop := radix = 2 \/ radix = 8 \/ radix = 10 \/ radix = 16.

(** Digits have a value after any digits. *)
Definition run (radix : N) (s : text) : Prop := forall acc, exists v, digits radix acc s v.
Lemma run_nil radix : run radix [].
Proof. intros acc. exists acc. constructor. Qed.
Lemma run_digit radix d c s : digit_in radix d c -> run radix s -> run radix (c :: s).
Proof. intros D R acc. destruct (R (radix * acc + d)) as (v & H). exists v. econstructor; eauto. Qed.
Lemma run_underscore radix d c s : digit_in radix d c -> run radix s -> run radix (95 :: c :: s).
Proof. intros D R acc. destruct (R (radix * acc + d)) as (v & H). exists v. eapply digits_underscore; eauto. Qed.

Lemma digits_end_nil radix : digits_end radix [].
Proof. split; [intros []|]. intros (c & r & E & _). discriminate. Qed.

Lemma radix_run_spec n : forall radix fuel acc x l e,
  a_radix radix -> (length l <= n)%nat -> (length l < fuel)%nat -> sees x l e ->
  exists w l' x',
    l = (w ++ l')%list /\ run radix (map snd w) /\ digits_end radix (map snd l')
    /\ radix_run_loop fuel radix acc x = (Ok (acc ++ map snd w)%list, x')
    /\ sees x' l' e /\ pending x' = pending x.
Proof.
  induction n as [n IH] using lt_wf_ind. intros radix fuel acc x l e R L LF H.
  destruct fuel as [|fuel]; [lia|]. cbn [radix_run_loop].
  destruct l as [|[p c] l].
  - b0. b1. cbn. exists [], [], x. cbn [map app]; rewrite app_nil_r; conj; auto; try (apply run_nil || apply digits_end_nil).
  - b0. b1. cbn [is_digit_of_radix option_map hd_error].
    destruct (digit_of_radix radix c) eqn:D.
    + bn H. cbn [length] in *.
      destruct (IH (length l)) with (radix := radix) (fuel := fuel) (acc := (acc ++ [c])%list) (x := x0) (l := l) (e := e)
        as (w & l' & x' & -> & RU & DE & RR & S' & P'); auto; try lia.
      exists ((p, c) :: w), l', x'. rewrite RR, <- app_assoc. cbn.
      apply (digit_of_radix_iff radix c R) in D as (d & D).
      conj; auto ; try congruence. eapply run_digit; eauto.
    + change underscore with 95. destruct (N.eqb_spec c 95) as [->|N95].
      * destruct l as [|[q c2] l].
        -- cbn. exists [], [(p, 95)], x. cbn [map app]; rewrite app_nil_r; conj; auto.
           ++ apply run_nil.
           ++ split; [|intros (? & ? & E & _); discriminate].
              cbn. rewrite <- (digit_of_radix_iff radix 95 R). congruence.
        -- cbn [andb is_digit_of_radix option_map hd_error snd].
           destruct (digit_of_radix radix c2) eqn:D2.
           ++ cbn [andb]. bn H. cbn [length] in *.
              destruct fuel as [|fuel]; [lia|]. cbn [radix_run_loop]. b0. b1.
              cbn [is_digit_of_radix option_map hd_error]. rewrite D2. bn S.
              destruct (IH (length l)) with (radix := radix) (fuel := fuel)
                (acc := ((acc ++ [95]) ++ [c2])%list) (x := x1) (l := l) (e := e)
                as (w & l' & x' & -> & RU & DE & RR & S' & P'); auto; try lia.
              exists ((p, 95) :: (q, c2) :: w), l', x'. rewrite RR, <- !app_assoc. cbn.
              apply (digit_of_radix_iff radix c2 R) in D2 as (d & D2).
              conj; auto ; try congruence. eapply run_underscore; eauto.
           ++ cbn [andb]. exists [], ((p, 95) :: (q, c2) :: l), x. cbn [map app]; rewrite app_nil_r; conj; auto.
              ** apply run_nil.
              ** split; [cbn; rewrite <- (digit_of_radix_iff radix 95 R); congruence|].
                 intros (c' & r & E & D'). injection E as <- _.
                 apply (digit_of_radix_iff radix c2 R) in D'. congruence.
      * cbn [andb]. exists [], ((p, c) :: l), x. cbn [map app]; rewrite app_nil_r; conj; auto.
        -- apply run_nil.
        -- split; [cbn; rewrite <- (digit_of_radix_iff radix c R); congruence|].
           intros (c' & r & E & D'). injection E as E _. congruence.
Qed.
Lemma radix_run_run radix x l e : a_radix radix -> sees x l e ->
  exists w l' x',
    l = (w ++ l')%list /\ run radix (map snd w) /\ digits_end radix (map snd l')
    /\ radix_run radix x = (Ok (map snd w), x') /\ sees x' l' e /\ pending x' = pending x.
Proof.
  intros R H. unfold radix_run. bl.
  destruct (radix_run_spec (length l) radix (left x) [] x l e R) as (w & l' & x' & Q); auto.
  { pose proof (sees_left _ _ _ H). lia. }
  exists w, l', x'. exact Q.
Qed.

(** Values *)
Lemma parse_digits_value radix s : a_radix radix -> forall acc v,
  digits radix acc s v -> parse_digits radix acc s = Some v.
Proof.
  intros R acc v H. induction H as [acc|acc d c s v D H IH|acc d c s v D H IH]; cbn; auto;
    change underscore with 95; pose proof (digit_in_bounds _ _ _ D) as [_ B]; apply N.eqb_neq in B.
  - rewrite B. assert (digit_of_radix radix c = true) as -> by (apply digit_of_radix_iff; [exact R|exists d; exact D]).
    rewrite (digit_in_value radix c d); auto. unfold a_radix in R. lia.
  - cbn. rewrite B.
    assert (digit_of_radix radix c = true) as -> by (apply digit_of_radix_iff; [exact R|exists d; exact D]).
    rewrite (digit_in_value radix c d); auto. unfold a_radix in R. lia.
Qed.

Lemma a_digit_10 c : a_digit_of 10 c <-> a_digit c.
Proof.
  unfold a_digit_of, digit_in, a_digit, between. split.
  - intros (d & A & B). lia.
  - intros H. exists (c - 48). lia.
Qed.

(** Decimal digits contain digits and underscores only. *)
Lemma digits_10_chars s : forall acc v, digits 10 acc s v -> Forall (fun c => a_digit c \/ c = 95) s.
Proof.
  intros acc v H. induction H as [acc|acc d c s v D H IH|acc d c s v D H IH]; auto.
  - constructor; auto. left. apply a_digit_10. exists d; auto.
  - constructor; auto. constructor; auto. left. apply a_digit_10. exists d; auto.
Qed.

Lemma not_prefix_letters s : Forall (fun c => a_digit c \/ c = 95) s ->
  starts_with (str "0x") s = false /\ starts_with (str "0o") s = false /\ starts_with (str "0b") s = false.
Proof.
  intros F.
  assert (Q : forall c, ~ a_digit c -> c <> 95 -> starts_with [48; c] s = false).
  { intros c A B. destruct (starts_with [48; c] s) eqn:E; [|reflexivity].
    apply starts_with_spec in E as (r & ->). exfalso.
    inversion F as [|? ? _ F']; subst. inversion F' as [|? ? F1 _]; subst. tauto. }
  change (str "0x") with [48; 120]. change (str "0o") with [48; 111]. change (str "0b") with [48; 98].
  unfold a_digit, between in Q. conj; apply Q; lia.
Qed.

Lemma decimal_value_parsed s v : decimal_int s v ->
  parse_int_value s = Some (Z.of_N v) /\ parse_int_value (45 :: s) = Some (Z.opp (Z.of_N v)).
Proof.
  intros [D F]. pose proof (digits_10_chars _ _ _ D) as FA.
  pose proof (not_prefix_letters _ FA) as (A & B & C).
  destruct s as [|c s]; [destruct F|]. cbn in F.
  assert (c <> 95 /\ c <> 45) as [N1 N2] by (unfold a_digit, between in F; lia).
  apply N.eqb_neq in N1, N2. unfold parse_int_value. split.
  - rewrite A, B, C. cbn [trim_start_underscores parse_bytes]. change underscore with 95.
    rewrite N1. change (ch "-") with 45. unfold parse_bytes. change (ch "-") with 45.
    rewrite N2. unfold parse_unsigned. change underscore with 95. rewrite N1.
    rewrite (parse_digits_value 10 _ ltac:(unfold a_radix; lia) _ _ D). reflexivity.
  - change (starts_with (str "0x") (45 :: c :: s)) with false.
    change (starts_with (str "0o") (45 :: c :: s)) with false.
    change (starts_with (str "0b") (45 :: c :: s)) with false.
    cbn [trim_start_underscores]. change (45 =? underscore) with false.
    unfold parse_bytes. change (45 =? ch "-") with true.
    unfold parse_unsigned. change underscore with 95. rewrite N1.
    rewrite (parse_digits_value 10 _ ltac:(unfold a_radix; lia) _ _ D). reflexivity.
Qed.

Lemma digits_nonempty_parsed radix s v : a_radix radix -> s <> [] -> digits radix 0 s v ->
  parse_bytes radix (trim_start_underscores s) = Some (Z.of_N v).
Proof.
  intros R NE D.
  assert (Q : forall c s' v', digit_of_radix radix c = true -> digits radix 0 (c :: s') v' ->
            parse_bytes radix (c :: s') = Some (Z.of_N v')).
  { intros c s' v' DC DD. apply digit_of_radix_iff in DC as (d & DC); [|exact R].
    pose proof (digit_in_bounds _ _ _ DC) as [B1 B2].
    unfold parse_bytes. assert (c =? ch "-" = false) as -> by (apply N.eqb_neq; change (ch "-") with 45; lia).
    unfold parse_unsigned. change underscore with 95. apply N.eqb_neq in B2. rewrite B2.
    rewrite (parse_digits_value radix _ R _ _ DD). reflexivity. }
  inversion D as [acc|acc d c s' v' DI D'|acc d c s' v' DI D']; subst.
  - congruence.
  - pose proof (digit_in_bounds _ _ _ DI) as [_ B]. apply N.eqb_neq in B. cbn [trim_start_underscores].
    change underscore with 95. rewrite B. apply Q; auto. apply digit_of_radix_iff; [exact R|exists d; exact DI].
  - pose proof (digit_in_bounds _ _ _ DI) as [_ B]. apply N.eqb_neq in B. cbn [trim_start_underscores].
    change underscore with 95. cbn. rewrite B. apply Q.
    + apply digit_of_radix_iff; [exact R|exists d; exact DI].
    + econstructor; eauto.
Qed.
