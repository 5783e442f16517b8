(** Comments and strings. *)
From Coq Require Import String NArith ZArith Bool List Lia ZifyBool ZifyNat ZifyN.
From Verif Require Import Text TextProofs Strings StringsSpec SrcSpan Lexer LexerSpec LexerProofs LexerNumbers.
Import ListNotations.
Open Scope N_scope.

(** ** Comments *)
Lemma comment_loop_spec w : forall fuel content x l e,
  sees x (w ++ l) e -> ~ In 10 (map snd w) -> (l = [] \/ exists q r, l = (q, 10) :: r) ->
  (length w < fuel)%nat ->
  exists x', comment_loop fuel content x = (Ok (content ++ map snd w)%list, x') /\ sees x' l e /\ pending x' = pending x.
Proof.
  induction w as [|[i c] w IH]; intros fuel content x l e H F E L; (destruct fuel as [|fuel]; [cbn in L; lia|]); cbn [comment_loop].
  - cbn [app] in H. b0. exists x. cbn [map]. rewrite app_nil_r.
    destruct E as [->|(q & r & ->)]; cbn; auto.
  - cbn [app map snd] in *. b0. change newline with 10.
    destruct (N.eqb_spec c 10) as [->|N]; [exfalso; apply F; left; reflexivity|]. bn H.
    destruct (IH fuel (content ++ [c])%list _ _ _ S) as (x' & R & S' & P'); auto.
    { intros I. apply F. right. exact I. }
    { cbn in L. lia. }
    exists x'. rewrite R. rewrite <- app_assoc. cbn. conj; auto. congruence.
Qed.

Lemma comment_taken x l e : sees x l e ->
  exists w l' x', l = (w ++ l')%list /\ a_line (map snd w) (map snd l')
    /\ comment_loop (left x) [] x = (Ok (map snd w), x') /\ sees x' l' e /\ pending x' = pending x.
Proof.
  intros H. destruct (take_prefix (fun c => negb (c =? 10)) l) as (w & l' & -> & F & E).
  assert (NI : ~ In 10 (map snd w)).
  { intros I. rewrite Forall_forall in F. apply F in I. cbn in I. discriminate. }
  assert (E' : l' = [] \/ exists q r, l' = (q, 10) :: r).
  { destruct l' as [|[q c] l']; auto. right. exists q, l'. f_equal. f_equal. destruct (N.eqb_spec c 10); auto. discriminate. }
  destruct (comment_loop_spec w (left x) [] x l' e H NI E') as (x' & R & S & P).
  { pose proof (sees_left _ _ _ H) as L. rewrite app_length in L. lia. }
  exists w, l', x'. conj; auto. split; auto.
  destruct E' as [->|(q & r & ->)]; auto. right. exists (map snd r). reflexivity.
Qed.

Lemma lex_comment_spec x l e : sees x l e ->
  exists sl co l' t x',
    l = (sl ++ co ++ l')%list /\ item [Gap (47 :: 47 :: map snd sl); Tok t (map snd co)] (map snd l')
    /\ lex_comment x = (Ok (pos (co ++ l') e, t, pos l' e), x') /\ sees x' l' e /\ pending x' = pending x.
Proof.
  intros H. unfold lex_comment. b0. b1. change (ch "/") with 47.
  destruct (match option_map snd (hd_error l) with Some c => c =? 47 | None => false end) eqn:S0.
  - apply is_char in S0 as (p & l1 & ->). cbn [tl andb].
    destruct (match option_map snd (hd_error l1) with Some c => c =? 47 | None => false end) eqn:S1.
    + apply is_char in S1 as (q & l2 & ->).
      destruct (next_some _ _ _ _ _ H) as (x1 & R1 & H1 & P1).
      destruct (next_some _ _ _ _ _ H1) as (x2 & R2 & H2 & P2).
      erewrite bind_ok. 2:{ erewrite bind_ok by exact R1. erewrite bind_ok by exact R2. reflexivity. }
      destruct (comment_taken _ _ _ H2) as (w & l' & x' & -> & AL & R & S & P).
      bp. bl. erewrite bind_ok by exact R. bp.
      exists [(p, 47); (q, 47)], w, l', CommentModule, x'. conj; auto; try congruence.
      cbn [map snd]. apply (item_module_comment (map snd w) _ AL).
    + destruct (next_some _ _ _ _ _ H) as (x1 & R1 & H1 & P1).
      erewrite bind_ok. 2:{ erewrite bind_ok by exact R1. reflexivity. }
      destruct (comment_taken _ _ _ H1) as (w & l' & x' & -> & AL & R & S & P).
      bp. bl. erewrite bind_ok by exact R. bp.
      exists [(p, 47)], w, l', (CommentDoc (map snd w)), x'. conj; auto; try congruence.
      cbn [map snd]. apply (item_doc_comment (map snd w) _ AL).
      intros (r & E). apply not_char in S1. apply S1. rewrite map_app, E. eexists. reflexivity.
  - cbn [andb]. erewrite bind_ok by reflexivity.
    destruct (comment_taken _ _ _ H) as (w & l' & x' & -> & AL & R & S & P).
    bp. bl. erewrite bind_ok by exact R. bp.
    exists [], w, l', CommentNormal, x'. conj; auto; try congruence.
    cbn [map snd]. apply (item_comment (map snd w) _ AL).
    intros (r & E). apply not_char in S0. apply S0. rewrite map_app, E. eexists. reflexivity.
Qed.

(** ** Strings *)
Lemma string_body_app a b : string_body a -> string_body b -> string_body (a ++ b).
Proof.
  induction 1 as [|c s A B H IH|e s E H IH]; intros Hb; cbn; auto.
  - constructor; auto.
  - rewrite <- app_assoc. apply body_escape; auto.
Qed.
Lemma hexdigit_iff c : is_hexdigit c = true <-> a_digit_of 16 c.
Proof. apply (digit_of_radix_iff 16 c). lia. Qed.

Lemma hexadecimal_value s : forall acc, Forall (a_digit_of 16) s ->
  hexadecimal acc s (fold_left (fun acc c => 16 * acc + hex_digit_value c) s acc).
Proof.
  induction s as [|c s IH]; intros acc F; cbn; [constructor|].
  inversion F as [|? ? (d & D) F']; subst. econstructor; [exact D|].
  pose proof (digit_in_value 16 c d ltac:(lia) D) as V. unfold digit_value in V. rewrite V. apply IH. exact F'.
Qed.
Lemma hexadecimal_bound s : forall acc v k, hexadecimal acc s v -> acc < 16 ^ k -> v < 16 ^ (k + N.of_nat (length s)).
Proof.
  intros acc v k H. revert k. induction H as [acc|acc d c s v (D & _) H IH]; intros k B.
  - cbn. rewrite N.add_0_r. exact B.
  - cbn [length]. replace (k + N.of_nat (S (length s))) with (k + 1 + N.of_nat (length s)) by lia.
    apply IH. rewrite N.pow_add_r, N.pow_1_r. nia.
Qed.
Lemma hexadecimal_fun acc s v : hexadecimal acc s v -> forall w, hexadecimal acc s w -> v = w.
Proof.
  induction 1 as [acc|acc d c s v D H IH]; intros w W; inversion W as [|? d' ? ? ? D' H']; subst; auto.
  assert (d = d') as <-; [|auto].
  rewrite <- (digit_in_value 16 c d), <- (digit_in_value 16 c d'); auto; lia.
Qed.

(** The digits of [\u{..}], from the brace on. *)
Lemma hex_loop_spec h : forall fuel digits x q c0 l e,
  sees x ((q, c0) :: h ++ l) e -> Forall (fun c => is_hexdigit c = true) (map snd h) ->
  match l with (_, c) :: _ => is_hexdigit c = false | [] => True end ->
  (length h < fuel)%nat ->
  (match l with
   | (_, c) :: _ => c = 125
   | [] => True
   end /\ exists x', hex_loop fuel digits x = (Ok (digits ++ map snd h)%list, x') /\ sees x' l e /\ pending x' = pending x)
  \/ (exists p c l', l = (p, c) :: l' /\ c <> 125
      /\ exists x', hex_loop fuel digits x
           = (Err {| error_kind := InvalidUnicodeEscape ExpectedHexDigitOrCloseBrace;
                     error_start := p; error_end := p + 1 |}, x')).
Proof.
  induction h as [|[i c] h IH]; intros fuel digits x q c0 l e H F E L; (destruct fuel as [|fuel]; [cbn in L; lia|]); cbn [hex_loop].
  - cbn [app] in H. bn H. b0. destruct l as [|[p c] l].
    + left. cbn [hd_error option_map map]. split; auto. exists x0. rewrite app_nil_r. auto.
    + cbn [hd_error option_map snd]. change brace_close with 125. destruct (N.eqb_spec c 125) as [->|N].
      * left. split; auto. exists x0. cbn. rewrite app_nil_r. auto.
      * rewrite E. cbn [negb]. right. bp. exists p, c, l. conj; auto. eexists. reflexivity.
  - cbn [app map snd] in *. inversion F as [|? ? F1 F2]; subst. bn H. b0.
    change brace_close with 125. destruct (N.eqb_spec c 125) as [->|N]; [discriminate|].
    rewrite F1. cbn [negb].
    destruct (IH fuel (digits ++ [c])%list _ _ _ _ _ S F2 E) as [(A & x' & R & S' & P')|(p & c' & l' & A & B & x' & R)].
    { cbn in L. lia. }
    + left. split; auto. exists x'. rewrite R, <- app_assoc. cbn. conj; auto. congruence.
    + right. exists p, c', l'. conj; auto. exists x'. exact R.
Qed.

(** The whole string ahead, [pre] of it read. *)
Definition in_string (L pre l : list (N * N)) (s : text) : Prop :=
  L = (pre ++ l)%list /\ map snd pre = 34 :: s /\ string_body s.

Lemma locate_at L pre l e kind before marked k :
  L = (pre ++ l)%list -> length before = (length pre + k)%nat ->
  locate L e kind before marked
  = (pos (skipn k l) e,
     match kind with
     | InvalidUnicodeEscape ExpectedHexDigitOrCloseBrace => pos (skipn k l) e + 1
     | _ => pos (skipn (k + length marked) l) e
     end).
Proof.
  intros -> E.
  assert (Q : forall n, skipn (length pre + n) (pre ++ l) = skipn n l).
  { intros n. clear. induction pre; cbn; auto. }
  unfold locate. rewrite E, <- Nat.add_assoc, !Q. reflexivity.
Qed.

Lemma unicode_escape_spec x q0 q1 l e L pre s :
  sees x ((q1, 117) :: l) e -> in_string L pre ((q0, 92) :: (q1, 117) :: l) s ->
  placed L e ->
  (exists h l' x',
     (q1, 117) :: l = (h ++ l')%list /\ escape (92 :: map snd h)
     /\ unicode_escape q0 x = (Ok (92 :: map snd h), x') /\ sees x' l' e /\ pending x' = pending x)
  \/ fails (unicode_escape q0 x) L e.
Proof.
  intros H (EL & Epre & BS) PL.
  assert (LP : length pre = S (length s)) by (rewrite <- (map_length snd), Epre; reflexivity).
  assert (PL0 := PL). rewrite EL in PL0. apply placed_app in PL0. cbn [placed pos] in PL0.
  destruct PL0 as (PA & _ & PB & _ & PC).
  specialize (PA ltac:(lia) ltac:(lia)). specialize (PB ltac:(lia) ltac:(lia)).
  unfold unicode_escape. destruct (next_some _ _ _ _ _ H) as (x1 & R1 & H1 & P1).
  erewrite bind_ok by exact R1. b0. bp. change brace_open with 123. change brace_close with 125.
  destruct (match option_map snd (hd_error l) with Some c => c =? 123 | None => false end) eqn:B; cbn [negb].
  2:{ right. eexists. exists x1. split; [reflexivity|].
      exists (34 :: s ++ [92])%list, (str "u"). cbn [error_kind error_start error_end]. split.
      - replace (map snd L) with (34 :: s ++ str "\u" ++ map snd l)%list.
        2:{ rewrite EL, map_app, Epre. reflexivity. }
        apply bad_no_brace; auto. intros (r & E). apply not_char in B. apply B. exists r. exact E.
      - rewrite (locate_at L pre _ e _ _ _ 1%nat EL).
        2:{ cbn [length]. rewrite app_length. cbn [length]. lia. }
        cbn [skipn Nat.add length str pos]. f_equal. lia. }
  apply is_char in B as (q2 & l2 & ->). cbn [pos] in PB.
  destruct (take_prefix is_hexdigit l2) as (h & l3 & -> & FH & EH).
  assert (FH' : Forall (a_digit_of 16) (map snd h)).
  { rewrite Forall_forall in *. intros c I. apply hexdigit_iff. auto. }
  bl. destruct (hex_loop_spec h (left x1) [] x1 q2 123 l3 e H1 FH EH)
    as [(A & x4 & R4 & H4 & P4)|(p & c & l' & A & B & x4 & R4)].
  { pose proof (sees_left _ _ _ H1) as LL. cbn [length] in LL. rewrite app_length in LL. lia. }
  - erewrite bind_ok by exact R4. cbn [app]. b0. bp.
    destruct l3 as [|[p c] l3].
    + cbn [hd_error option_map negb pos]. right. eexists. exists x4. split; [reflexivity|].
      assert (Q : exists u c p, (q2, 123) :: h = (u ++ [(p, c)])%list).
      { destruct (@exists_last _ ((q2, 123) :: h)) as (u & [p c] & E); [discriminate|]. eauto. }
      destruct Q as (u & c & p & Q).
      assert (EC : e = p + 1).
      { rewrite app_nil_r, Q in PC. apply placed_app in PC. cbn in PC. apply PC.
        - assert (I : In c (123 :: map snd h)).
          { change (123 :: map snd h) with (map snd ((q2, 123) :: h)). rewrite Q, map_app. apply in_or_app. right. left. reflexivity. }
          destruct I as [<-|I]; [lia|]. rewrite Forall_forall in FH. apply FH in I. unfold is_hexdigit, is_digit in I. lia.
        - assert (I : In c (123 :: map snd h)).
          { change (123 :: map snd h) with (map snd ((q2, 123) :: h)). rewrite Q, map_app. apply in_or_app. right. left. reflexivity. }
          destruct I as [<-|I]; [lia|]. rewrite Forall_forall in FH. apply FH in I. unfold is_hexdigit, is_digit in I. lia. }
      exists (34 :: s ++ str "\u" ++ map snd u)%list, [c]. cbn [error_kind error_start error_end]. split.
      * replace (map snd L) with (34 :: s ++ str "\u{" ++ map snd h)%list.
        2:{ rewrite EL, map_app, Epre, app_nil_r. reflexivity. }
        apply bad_hex_end; auto.
        change (str "{" ++ map snd h)%list with (map snd ((q2, 123) :: h)). rewrite Q, map_app. reflexivity.
      * rewrite (locate_at L pre _ e _ _ _ (2 + length u)%nat EL).
        2:{ cbn [length]. rewrite !app_length, map_length. cbn [length str]. lia. }
        cbn [skipn Nat.add]. rewrite app_nil_r. change ((q2, 123) :: h) with ([(q2, 123)] ++ h)%list in Q.
        rewrite app_nil_r in EL. cbn [app] in Q. rewrite Q, skipn_app_length by reflexivity. cbn [pos]. f_equal; lia.
    + subst c. cbn [hd_error option_map snd]. change (125 =? 125) with true. cbn [negb].
      destruct (next_some _ _ _ _ _ H4) as (x5 & R5 & H5 & P5).
      erewrite bind_ok by exact R5. bp.
      assert (ET : map snd L = (34 :: s ++ str "\u{" ++ map snd h ++ str "}" ++ map snd l3)%list).
      { rewrite EL, map_app, Epre. cbn [map snd]. rewrite map_app. reflexivity. }
      assert (LOC : forall kind, (match kind with InvalidUnicodeEscape ExpectedHexDigitOrCloseBrace => False | _ => True end) ->
                locate L e kind (34 :: s) (str "\u{" ++ map snd h ++ str "}") = (q0, pos l3 e)).
      { intros kind K. rewrite (locate_at L pre _ e _ _ _ 0%nat EL) by (cbn [length]; lia).
        cbn [skipn pos Nat.add]. f_equal.
        assert (Z : pos (skipn (length (str "\u{" ++ map snd h ++ str "}")) ((q0, 92) :: (q1, 117) :: (q2, 123) :: h ++ (p, 125) :: l3)) e = pos l3 e).
        { rewrite !app_length, map_length. cbn [length str Nat.add skipn].
          replace (length h + 1)%nat with (length h + 1)%nat by lia.
          replace (h ++ (p, 125) :: l3)%list with ((h ++ [(p, 125)]) ++ l3)%list by (rewrite <- app_assoc; reflexivity).
          rewrite skipn_app_length; [reflexivity|]. rewrite app_length. reflexivity. }
        rewrite Z. destruct kind as [| | | | | | | |[| | |]| | |]; auto; contradiction. }
      destruct ((1 <=? length (map snd h))%nat && (length (map snd h) <=? 6)%nat) eqn:LEN; cbn [negb].
      * assert (LH : (1 <= length (map snd h) <= 6)%nat) by lia.
        pose proof (hexadecimal_value (map snd h) 0 FH') as HV.
        assert (BV : hex_value (map snd h) < 2 ^ 32).
        { pose proof (hexadecimal_bound (map snd h) 0 _ 0 HV ltac:(reflexivity)) as BB.
          assert (16 ^ (0 + N.of_nat (length (map snd h))) <= 16 ^ 6) by (apply N.pow_le_mono_r; lia).
          change (2 ^ 32) with 4294967296. change (16 ^ 6) with 16777216 in H0. unfold hex_value. lia. }
        unfold u32_from_hex. apply N.ltb_lt in BV. rewrite BV.
        unfold char_from_u32.
        destruct ((hex_value (map snd h) <? 0xD800) || ((0xE000 <=? hex_value (map snd h)) && (hex_value (map snd h) <=? 0x10FFFF))) eqn:SC.
        -- left. exists ((q1, 117) :: (q2, 123) :: h ++ [(p, 125)])%list, l3, x5.
           assert (EM : (92 :: map snd ((q1, 117) :: (q2, 123) :: h ++ [(p, 125)]))%list = (str "\u{" ++ map snd h ++ str "}")%list).
           { cbn [map snd]. rewrite map_app. reflexivity. }
           rewrite EM. conj; auto; try congruence.
           ++ cbn [app]. rewrite <- app_assoc. reflexivity.
           ++ eapply escape_unicode; eauto. unfold scalar_value. unfold hex_value in SC. lia.
        -- right. eexists. exists x5. split; [reflexivity|].
           exists (34 :: s), (str "\u{" ++ map snd h ++ str "}")%list. cbn [error_kind error_start error_end].
           split; [|rewrite LOC; auto]. rewrite ET.
           replace (34 :: s ++ str "\u{" ++ map snd h ++ str "}" ++ map snd l3)%list
             with (34 :: s ++ str "\u{" ++ map snd h ++ str "}" ++ map snd l3)%list by reflexivity.
           eapply bad_codepoint; eauto. unfold scalar_value. unfold hex_value in SC. lia.
      * right. eexists. exists x5. split; [reflexivity|].
        exists (34 :: s), (str "\u{" ++ map snd h ++ str "}")%list. cbn [error_kind error_start error_end].
        split; [|rewrite LOC; auto]. rewrite ET. apply bad_hex_length; auto. lia.
  - right. erewrite bind_err by exact R4. eexists. exists x4. split; [reflexivity|]. subst l3.
    exists (34 :: s ++ str "\u{" ++ map snd h)%list, [c]. cbn [error_kind error_start error_end]. split.
    + replace (map snd L) with (34 :: s ++ str "\u{" ++ map snd h ++ c :: map snd l')%list.
      2:{ rewrite EL, map_app, Epre. cbn [map snd]. rewrite map_app. reflexivity. }
      apply bad_hex_digit; auto. rewrite <- hexdigit_iff. congruence.
    + rewrite (locate_at L pre _ e _ _ _ (3 + length h)%nat EL).
      2:{ cbn [length]. rewrite !app_length, map_length. cbn [length str]. lia. }
      cbn [skipn Nat.add]. rewrite skipn_app_length by reflexivity. reflexivity.
Qed.

Lemma simple_escape_iff c : simple_escape c = true <-> In c (34 :: 92 :: str "fnrt").
Proof.
  unfold simple_escape, double_quote, backslash.
  change (ch "f") with 102. change (ch "n") with 110. change (ch "r") with 114. change (ch "t") with 116.
  change (34 :: 92 :: str "fnrt") with [34; 92; 102; 110; 114; 116]. cbn [In]. lia.
Qed.

Lemma string_loop_spec n : forall fuel x l e L pre s,
  (length l <= n)%nat -> (length l < fuel)%nat ->
  sees x l e -> in_string L pre l s -> placed L e ->
  (exists w q l' x',
     l = (w ++ (q, 34) :: l')%list /\ string_body (map snd w)
     /\ string_loop fuel (pos L e) s x = (Ok (s ++ map snd w)%list, x')
     /\ sees x' l' e /\ pending x' = pending x)
  \/ fails (string_loop fuel (pos L e) s x) L e.
Proof.
  induction n as [n IH] using lt_wf_ind. intros fuel x l e L pre s LN LF H IS PL.
  assert (IS0 := IS). destruct IS0 as (EL & Epre & BS).
  assert (LP : length pre = S (length s)) by (rewrite <- (map_length snd), Epre; reflexivity).
  destruct fuel as [|fuel]; [lia|]. cbn [string_loop].
  destruct l as [|[p c] l].
  - right. destruct (next_none _ _ H) as (x1 & R1 & H1 & P1). erewrite bind_ok by exact R1.
    eexists. exists x1. split; [reflexivity|]. exists [], []. cbn [error_kind error_start error_end]. split.
    + rewrite EL, app_nil_r, Epre. apply bad_no_end. exact BS.
    + reflexivity.
  - bn H. cbv beta iota. change backslash with 92. change double_quote with 34.
    destruct (N.eqb_spec c 92) as [->|N92].
    + assert (PL0 := PL). rewrite EL in PL0. apply placed_app in PL0. cbn [placed] in PL0.
      destruct PL0 as (PA & _ & _). specialize (PA ltac:(lia) ltac:(lia)).
      bp. b0. rewrite PA. replace (p + 1 - 1) with p by lia.
      destruct l as [|[q c] l]; cbn [hd_error option_map snd].
      * right. eexists. exists x0. split; [reflexivity|].
        exists (34 :: s), []. cbn [error_kind error_start error_end]. split.
        -- rewrite EL, map_app, Epre. apply bad_escape_at_end. exact BS.
        -- rewrite (locate_at L pre _ e _ _ _ 0%nat EL) by (cbn [length]; lia). reflexivity.
      * destruct (simple_escape c) eqn:SE.
        -- destruct (next_some _ _ _ _ _ S) as (x1 & R1 & S1 & P1). erewrite bind_ok by exact R1.
           cbn [length] in *.
           assert (ES : escape [92; c]) by (constructor; apply simple_escape_iff; exact SE).
           destruct (IH (length l)) with (fuel := fuel) (x := x1) (l := l) (e := e) (L := L)
             (pre := (pre ++ [(p, 92); (q, c)])%list) (s := (s ++ [92; c])%list)
             as [(w & q' & l' & x' & -> & BW & RR & S' & P')|F]; auto; try lia.
           { split; [|split].
             - rewrite EL, <- app_assoc. reflexivity.
             - rewrite map_app, Epre. reflexivity.
             - apply string_body_app; auto. rewrite <- (app_nil_r [92; c]). apply body_escape; auto. constructor. }
           left. exists ((p, 92) :: (q, c) :: w), q', l', x'. conj; auto; try congruence.
           ++ cbn [map snd]. apply (body_escape [92; c] (map snd w) ES BW).
           ++ rewrite RR, <- app_assoc. reflexivity.
        -- change (ch "u") with 117. destruct (N.eqb_spec c 117) as [->|N117].
           ++ destruct (unicode_escape_spec x0 p q l e L pre s S IS PL)
                as [(h & l' & x1 & EH & ES & RU & S1 & P1)|(r & x1 & F & BAD)].
              ** erewrite bind_ok by exact RU.
                 assert (LL : (length l' <= length l)%nat).
                 { destruct h as [|a h]; [inversion ES|]. apply (f_equal (@length _)) in EH.
                   cbn [length] in EH. rewrite app_length in EH. cbn [length] in EH. lia. }
                 cbn [length] in *.
                 destruct (IH (length l')) with (fuel := fuel) (x := x1) (l := l') (e := e) (L := L)
                   (pre := (pre ++ (p, 92) :: h)%list) (s := (s ++ 92 :: map snd h)%list)
                   as [(w & q' & l'' & x' & -> & BW & RR & S' & P')|F]; auto; try lia.
                 { split; [|split].
                   - rewrite EL, <- app_assoc. cbn. rewrite <- EH. reflexivity.
                   - rewrite map_app, Epre. reflexivity.
                   - apply string_body_app; auto. rewrite <- (app_nil_r (92 :: map snd h)). apply body_escape; auto. constructor. }
                 left. exists ((p, 92) :: h ++ w)%list, q', l'', x'. conj; auto; try congruence.
                 --- rewrite EH. cbn. rewrite <- app_assoc. reflexivity.
                 --- cbn [map snd]. rewrite map_app. apply (body_escape (92 :: map snd h) (map snd w) ES BW).
                 --- rewrite RR, <- app_assoc. cbn [map snd app]. rewrite map_app. reflexivity.
              ** right. erewrite bind_err by exact F. exists r, x1. auto.
           ++ right. eexists. exists x0. split; [reflexivity|].
              exists (34 :: s), [92]. cbn [error_kind error_start error_end]. split.
              ** rewrite EL, map_app, Epre. apply (bad_escape s c (map snd l) BS).
                 intros I. change (34 :: 92 :: str "fnrtu") with [34; 92; 102; 110; 114; 116; 117] in I.
                 assert (simple_escape c = true \/ c = 117); [|intuition congruence].
                 rewrite simple_escape_iff. change (34 :: 92 :: str "fnrt") with [34; 92; 102; 110; 114; 116].
                 cbn [In] in *. destruct I as [I|[I|[I|[I|[I|[I|[I|[]]]]]]]]; auto; left; tauto.
              ** rewrite (locate_at L pre _ e _ _ _ 0%nat EL) by (cbn [length]; lia).
                 cbn [skipn pos Nat.add length]. cbn [pos] in PA. f_equal. lia.
    + destruct (N.eqb_spec c 34) as [->|N34].
      * left. exists [], p, l, x0. conj; auto; try constructor; try congruence.
        cbn [map]. rewrite app_nil_r. reflexivity.
      * cbn [length] in *.
        destruct (IH (length l)) with (fuel := fuel) (x := x0) (l := l) (e := e) (L := L)
             (pre := (pre ++ [(p, c)])%list) (s := (s ++ [c])%list)
             as [(w & q' & l' & x' & -> & BW & RR & S' & P')|F]; auto; try lia.
        { split; [|split].
          - rewrite EL, <- app_assoc. reflexivity.
          - rewrite map_app, Epre. reflexivity.
          - apply string_body_app; auto. constructor; auto. constructor. }
        left. exists ((p, c) :: w), q', l', x'. conj; auto; try congruence.
        -- cbn [map snd]. constructor; auto.
        -- rewrite RR, <- app_assoc. reflexivity.
Qed.

Lemma lex_string_spec x p l e :
  sees x ((p, 34) :: l) e -> placed ((p, 34) :: l) e ->
  (exists w q l' x',
     l = (w ++ (q, 34) :: l')%list /\ string_body (map snd w)
     /\ lex_string x = (Ok (p, StringLiteral (map snd w), pos l' e), x') /\ sees x' l' e /\ pending x' = pending x)
  \/ fails (lex_string x) ((p, 34) :: l) e.
Proof.
  intros H PL. unfold lex_string. bp. bn H. bl.
  destruct (string_loop_spec (length l) (left x0) x0 l e ((p, 34) :: l) [(p, 34)] [])
    as [(w & q & l' & x' & -> & BW & RR & S' & P')|(r & x' & F & BAD)]; auto.
  - pose proof (sees_left _ _ _ S). lia.
  - split; [reflexivity|]. split; [reflexivity|]. constructor.
  - left. cbn [pos] in RR. erewrite bind_ok by exact RR. bp.
    exists w, q, l', x'. conj; auto. congruence.
  - right. cbn [pos] in F. erewrite bind_err by exact F. exists r, x'. auto.
Qed.
