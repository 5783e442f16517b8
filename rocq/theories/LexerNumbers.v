(** Numbers. *)
From Coq Require Import String NArith ZArith Bool List Lia ZifyBool ZifyNat ZifyN.
From Verif Require Import Text TextProofs Strings StringsSpec SrcSpan Lexer LexerSpec LexerProofs.
Import ListNotations.
Open Scope N_scope.

Lemma skipn_map_length {A B} (f : A -> B) a b : skipn (length (map f a)) (a ++ b) = b.
Proof. rewrite map_length. induction a; cbn; auto. Qed.
Lemma skipn_app_length {A} (a b : list A) n : n = length a -> skipn n (a ++ b) = b.
Proof. intros ->. induction a; cbn; auto. Qed.

Lemma is_char (l : list (N * N)) (c : N) :
  match option_map snd (hd_error l) with Some d => d =? c | None => false end = true <->
  exists p l', l = (p, c) :: l'.
Proof.
  destruct l as [|[p d] l]; cbn.
  - split; [discriminate|]. intros (p & l' & E). discriminate.
  - rewrite N.eqb_eq. split.
    + intros ->. eauto.
    + intros (q & l' & E). congruence.
Qed.
Lemma not_char (l : list (N * N)) (c : N) :
  match option_map snd (hd_error l) with Some d => d =? c | None => false end = false <->
  ~ exists r, map snd l = c :: r.
Proof.
  destruct l as [|[p d] l]; cbn.
  - split; auto. intros _ (r & E). discriminate.
  - rewrite N.eqb_neq. split.
    + intros H (r & E). congruence.
    + intros H ->. apply H. eauto.
Qed.

(** ** Decimal numbers *)
Section Decimal.
  Variables (x : lexer) (e start : N) (sgn D : list (N * N)) (m : text) (sg : Z) (negative : bool).
  Hypothesis HS : sees x D e.
  Hypothesis Hsgn : map snd sgn = m.
  Hypothesis Hsign : sign m sg.
  Hypothesis Hneg : m = if negative then str "-" else [].
  Hypothesis Hstart : start = pos (sgn ++ D) e.
  Hypothesis HD : followed a_digit (map snd D).

  Lemma first_digits : exists s v l' x',
    D = (s ++ l')%list /\ decimal_int (map snd s) v /\ digits_end 10 (map snd l')
    /\ radix_run 10 x = (Ok (map snd s), x') /\ sees x' l' e /\ pending x' = pending x.
  Proof.
    destruct (radix_run_run 10 x D e) as (s & l' & x' & E & RU & DE & RR & S & P); auto.
    { unfold a_radix; lia. }
    destruct (RU 0) as (v & V). exists s, v, l', x'. conj; auto.
    split; [exact V|]. subst D. destruct s as [|[q c] s]; [|exact HD].
    cbn in HD. destruct DE as [DE _]. exfalso. apply DE.
    destruct (map snd l'); cbn in *; auto. apply a_digit_10. exact HD.
  Qed.

  Lemma int_value s v : decimal_int s v ->
    parse_int_value ((if negative then str "-" else []) ++ s) = Some (sg * Z.of_N v)%Z.
  Proof.
    intros V. pose proof (decimal_value_parsed _ _ V) as (A & B).
    revert Hneg. clear HS Hsgn Hstart. intros Hneg.
    destruct negative; inversion Hsign; subst; try discriminate.
    - change (str "-" ++ s)%list with (45 :: s). rewrite B. f_equal; try lia.
    - cbn [app]. rewrite A. f_equal; try lia.
  Qed.

  (** After a dot: only digits. *)
  Lemma int_number_spec :
    exists s v l' x',
      D = (s ++ l')%list /\ decimal_int (map snd s) v /\ digits_end 10 (map snd l')
      /\ lex_int_number start negative x = (Ok (start, Int (m ++ map snd s) (sg * Z.of_N v), pos l' e), x')
      /\ sees x' l' e /\ pending x' = pending x.
  Proof.
    destruct first_digits as (s & v & l' & x' & E & V & DE & RR & S & P).
    exists s, v, l', x'. conj; auto.
    unfold lex_int_number, lex_decimal_or_int_number. erewrite bind_ok by exact RR. b0.
    cbn [andb]. rewrite (int_value _ _ V). bp. rewrite Hneg. reflexivity.
  Qed.

  Hypothesis Hplain : ~ exists c r, map snd D = 48 :: c :: r /\ exists r p, radix_letter r c p.

  Lemma decimal_number_spec :
    (exists t w l' x',
       (sgn ++ D)%list = (w ++ l')%list /\ number 10 t (map snd w) (map snd l') /\ digits_end 10 (map snd l')
       /\ lex_decimal_number start negative x = (Ok (start, t, pos l' e), x')
       /\ sees x' l' e /\ pending x' = pending x)
    \/ fails (lex_decimal_number start negative x) (sgn ++ D) e.
  Proof.
    destruct first_digits as (s & v & l1 & x1 & E & V & DE & RR & S1 & P1).
    unfold lex_decimal_number, lex_decimal_or_int_number. erewrite bind_ok by exact RR. b0. cbn [andb].
    change (ch ".") with 46.
    destruct (match option_map snd (hd_error l1) with Some c => c =? 46 | None => false end) eqn:Dot.
    - apply is_char in Dot as (q & l2 & ->). bn S1.
      destruct (radix_run_run 10 x0 l2 e) as (f & l3 & x3 & -> & RU & DE3 & RR3 & S3 & P3); auto.
      { unfold a_radix; lia. }
      destruct (RU 0) as (fv & FV). erewrite bind_ok by exact RR3. b0. change (ch "e") with 101.
      destruct (match option_map snd (hd_error l3) with Some c => c =? 101 | None => false end) eqn:Exp.
      + apply is_char in Exp as (q' & l4 & ->). bn S3. b0. change (ch "-") with 45.
        assert (Q : exists n sg' N x5 l5, sign n sg' /\ l4 = (N ++ l5)%list /\ map snd N = n
                  /\ (n = [] -> ~ exists r, map snd l5 = 45 :: r)
                  /\ (forall val : text,
                      (if match option_map snd (hd_error l4) with Some c => c =? 45 | None => false end
                       then next_char ;; ret (val ++ str "-")%list
                       else ret val) x2 = (Ok (val ++ n)%list, x5))
                  /\ sees x5 l5 e /\ pending x5 = pending x).
        { destruct (match option_map snd (hd_error l4) with Some c => c =? 45 | None => false end) eqn:Neg.
          - apply is_char in Neg as (q5 & l5 & ->). destruct (next_some _ _ _ _ _ S0) as (x4 & R4 & S4 & P4).
            exists (str "-"), (-1)%Z, [(q5, 45)], x4, l5. conj; auto; try constructor; try congruence.
            intros Z; discriminate.
            intros val. erewrite bind_ok by exact R4. reflexivity.
          - exists [], 1%Z, [], x2, l4. conj; auto; try constructor.
            + intros _. apply not_char. exact Neg.
            + intros val. rewrite app_nil_r. reflexivity.
            + congruence. }
        destruct Q as (n & sg' & N & x5 & l5 & Hn & -> & HN & Hm & RN & S5 & P5).
        erewrite bind_ok by apply RN.
        destruct (radix_run_run 10 x5 l5 e) as (ex & l6 & x6 & -> & RU6 & DE6 & RR6 & S6 & P6); auto.
        { unfold a_radix; lia. }
        erewrite bind_ok by exact RR6. bp.
        destruct ex as [|[q6 c6] ex].
        * right. cbn [app] in *. cbn [map]. eexists. exists x6. split; [reflexivity|].
          exists [], (m ++ map snd s ++ str "." ++ map snd f ++ str "e" ++ n)%list. cbn [error_kind error_start error_end].
          split.
          -- assert (T : map snd (sgn ++ D) = (m ++ map snd s ++ str "." ++ map snd f ++ str "e" ++ n ++ map snd l6)%list).
             { rewrite E, !map_app, Hsgn. cbn [map snd]. rewrite !map_app. cbn [map snd]. rewrite map_app, HN. reflexivity. }
             rewrite T. eapply bad_exponent; eauto.
          -- unfold locate. cbn [length skipn Nat.add]. rewrite Hstart. f_equal.
             rewrite E, <- HN, <- Hsgn. f_equal.
             replace (sgn ++ s ++ (q, 46) :: f ++ (q', 101) :: N ++ l6)%list
               with ((sgn ++ s ++ (q, 46) :: f ++ (q', 101) :: N) ++ l6)%list
               by (rewrite <- !app_assoc; cbn; rewrite <- app_assoc; reflexivity).
             rewrite skipn_app_length; auto.
             rewrite !app_length, !map_length. cbn [length]. rewrite app_length. cbn [length]. reflexivity.
        * left. destruct (RU6 0) as (xv & XV).
          exists (Float (m ++ map snd s ++ str "." ++ map snd f ++ str "e" ++ n ++ map snd ((q6, c6) :: ex)))%list,
                 (sgn ++ s ++ (q, 46) :: f ++ (q', 101) :: N ++ ((q6, c6) :: ex))%list, l6, x6.
          conj; auto; try congruence.
          -- rewrite E, <- !app_assoc. cbn. rewrite <- !app_assoc. cbn. rewrite <- !app_assoc. reflexivity.
          -- replace (map snd (sgn ++ s ++ (q, 46) :: f ++ (q', 101) :: N ++ (q6, c6) :: ex))
               with (m ++ map snd s ++ str "." ++ map snd f ++ str "e" ++ n ++ map snd ((q6, c6) :: ex))%list.
             2:{ rewrite !map_app, Hsgn. cbn [map snd]. rewrite !map_app. cbn [map snd]. rewrite map_app, HN. reflexivity. }
             eapply number_exponent; eauto. discriminate.
          -- cbn [map snd]. rewrite Hneg, <- !app_assoc. reflexivity.
      + left. bp.
        exists (Float (m ++ map snd s ++ str "." ++ map snd f)), (sgn ++ s ++ (q, 46) :: f)%list, l3, x3.
        conj; auto; try congruence.
        * rewrite E, <- !app_assoc. reflexivity.
        * replace (map snd (sgn ++ s ++ (q, 46) :: f)) with (m ++ map snd s ++ str "." ++ map snd f)%list.
          2:{ rewrite !map_app, Hsgn. reflexivity. }
          eapply number_float; eauto. intros (r & R'). apply not_char in Exp. apply Exp. exists r. exact R'.
        * rewrite Hneg, <- !app_assoc. reflexivity.
    - left. rewrite (int_value _ _ V). bp.
      exists (Int (m ++ map snd s) (sg * Z.of_N v)), (sgn ++ s)%list, l1, x1.
      conj; auto.
      + rewrite E, app_assoc. reflexivity.
      + rewrite map_app, Hsgn. apply number_decimal; auto.
        * intros (r & R'). apply not_char in Dot. apply Dot. exists r. exact R'.
        * intros (Z & F). apply Hplain. destruct l1 as [|[q c] l1]; [destruct F|].
          exists c, (map snd l1). split; [|exact F]. rewrite E, map_app, Z. reflexivity.
      + rewrite Hneg. reflexivity.
  Qed.
End Decimal.

(** ** Numbers in another radix *)
Lemma radix_number_spec x e start (sgn : list (N * N)) q0 q1 letter D m sg (negative : bool) radix prefix :
  sees x D e -> map snd sgn = m -> sign m sg -> m = (if negative then str "-" else []) ->
  radix_letter radix letter prefix ->
  placed (sgn ++ (q0, 48) :: (q1, letter) :: D) e ->
  (exists t w l' x',
     (sgn ++ (q0, 48) :: (q1, letter) :: D)%list = (w ++ l')%list
     /\ number radix t (map snd w) (map snd l') /\ digits_end radix (map snd l')
     /\ lex_number_radix start radix negative prefix x = (Ok (start, t, pos l' e), x')
     /\ sees x' l' e /\ pending x' = pending x)
  \/ fails (lex_number_radix start radix negative prefix x) (sgn ++ (q0, 48) :: (q1, letter) :: D) e.
Proof.
  intros HS Hsgn Hsign Hneg HL PL.
  assert (R : a_radix radix) by (unfold a_radix; inversion HL; lia).
  destruct (radix_run_run radix x D e R HS) as (s & l' & x' & -> & RU & DE & RR & S & P).
  unfold lex_number_radix. erewrite bind_ok by exact RR. b0.
  apply placed_app in PL. cbn [placed] in PL. destruct PL as (PL0 & _ & PL1 & _ & _).
  cbn [pos] in *.
  destruct s as [|[q c] s].
  - cbn [map app] in *. right. bp. eexists. exists x'. split; [reflexivity|].
    exists (m ++ str "0")%list, []. cbn [error_kind error_start error_end]. split.
    + rewrite map_app, Hsgn. cbn [map snd]. change (48 :: letter :: map snd l') with (str "0" ++ [letter] ++ map snd l')%list.
      eapply bad_no_digits; eauto.
    + assert (LT : letter < 128 /\ letter <> 10) by (inversion HL; lia).
      rewrite PL1 by lia. unfold locate.
      assert (E : skipn (length (m ++ str "0")) (sgn ++ (q0, 48) :: (q1, letter) :: l') = (q1, letter) :: l').
      { replace (sgn ++ (q0, 48) :: (q1, letter) :: l')%list with ((sgn ++ [(q0, 48)]) ++ (q1, letter) :: l')%list
          by (rewrite <- app_assoc; reflexivity).
        apply skipn_app_length. rewrite !app_length, <- Hsgn, map_length. reflexivity. }
      rewrite Nat.add_0_r, E. cbn [pos]. f_equal; lia.
  - destruct (RU 0) as (v & V). cbn [map snd].
    destruct ((radix <? 16) && is_digit_of_radix (option_map snd (hd_error l')) 16) eqn:HX.
    + right. bp. eexists. exists x'. split; [reflexivity|].
      exists (m ++ str "0" ++ [letter] ++ map snd ((q, c) :: s))%list, []. cbn [error_kind error_start error_end].
      apply andb_true_iff in HX as (H1 & H2).
      split.
      * replace (map snd (sgn ++ (q0, 48) :: (q1, letter) :: ((q, c) :: s) ++ l'))
          with (m ++ str "0" ++ [letter] ++ map snd ((q, c) :: s) ++ map snd l')%list.
        2:{ rewrite !map_app, Hsgn. cbn [map snd]. rewrite map_app. reflexivity. }
        eapply bad_digit; eauto; [lia|discriminate|].
        destruct l' as [|[q' c'] l']; [discriminate|].
        apply (digit_of_radix_iff 16 c'); [lia|exact H2].
      * unfold locate. rewrite Nat.add_0_r.
        replace (sgn ++ (q0, 48) :: (q1, letter) :: ((q, c) :: s) ++ l')%list
          with ((sgn ++ (q0, 48) :: (q1, letter) :: ((q, c) :: s)) ++ l')%list
          by (rewrite <- app_assoc; reflexivity).
        rewrite !skipn_app_length; auto;
          rewrite !app_length, <- Hsgn, !map_length; cbn [length str]; reflexivity.
    + left.
      assert (PV : parse_int_value (prefix ++ c :: map snd s) = Some (Z.of_N v)).
      { pose proof (digits_nonempty_parsed radix (c :: map snd s) v R ltac:(discriminate) V) as Q.
        unfold parse_int_value.
        inversion HL; subst;
          match goal with |- context [str ?p ++ ?t] =>
            set (T := t) in *; cbn [str app Ascii.N_of_ascii Ascii.N_of_digits N.add N.mul Pos.add Pos.mul];
            cbn [starts_with str Ascii.N_of_ascii Ascii.N_of_digits N.add N.mul Pos.add Pos.mul N.eqb Pos.eqb andb skipn] end;
          exact Q. }
      rewrite PV. bp.
      exists (Int (m ++ prefix ++ map snd ((q, c) :: s)) (sg * Z.of_N v)),
             (sgn ++ (q0, 48) :: (q1, letter) :: (q, c) :: s)%list, l', x'.
      conj; auto.
      * rewrite <- app_assoc. reflexivity.
      * replace (map snd (sgn ++ (q0, 48) :: (q1, letter) :: (q, c) :: s))
          with (m ++ str "0" ++ [letter] ++ map snd ((q, c) :: s))%list.
        2:{ rewrite !map_app, Hsgn. reflexivity. }
        eapply number_radix; eauto; [discriminate|].
        intros LT. apply N.ltb_lt in LT. rewrite LT in HX. cbn [andb] in HX.
        destruct l' as [|[q' c'] l']; [intros []|]. intros F.
        apply (digit_of_radix_iff 16 c') in F; [|lia]. cbn [option_map hd_error snd is_digit_of_radix] in HX. congruence.
      * cbn [map snd]. destruct negative; subst m.
        -- rewrite Hneg in Hsign. inversion Hsign; subst. rewrite Hneg.
           replace (-1 * Z.of_N v)%Z with (- Z.of_N v)%Z by lia. reflexivity.
        -- rewrite Hneg in Hsign. inversion Hsign; subst. rewrite Hneg.
           replace (1 * Z.of_N v)%Z with (Z.of_N v)%Z by lia. reflexivity.
Qed.

Lemma radix_of_iff c radix prefix : radix_of (Some c) = Some (radix, prefix) <-> radix_letter radix c prefix.
Proof.
  unfold radix_of. change (ch "x") with 120. change (ch "X") with 88. change (ch "o") with 111.
  change (ch "O") with 79. change (ch "b") with 98. change (ch "B") with 66. split.
  - destruct ((c =? 120) || (c =? 88)) eqn:A; [intros H; injection H as <- <-; constructor; lia|].
    destruct ((c =? 111) || (c =? 79)) eqn:B; [intros H; injection H as <- <-; constructor; lia|].
    destruct ((c =? 98) || (c =? 66)) eqn:C; [intros H; injection H as <- <-; constructor; lia|].
    discriminate.
  - intros H. inversion H as [? [->| ->]|? [->| ->]|? [->| ->]]; reflexivity.
Qed.

Lemma lex_number_spec x p c l e :
  sees x ((p, c) :: l) e -> placed ((p, c) :: l) e ->
  is_number_start c (option_map snd (hd_error l)) = true ->
  (exists t w l' x',
     (p, c) :: l = (w ++ l')%list /\ a_number t (map snd w) (map snd l')
     /\ lex_number x = (Ok (p, t, pos l' e), x') /\ sees x' l' e /\ pending x' = pending x)
  \/ fails (lex_number x) ((p, c) :: l) e.
Proof.
  intros H PL ST. unfold lex_number. bp. b0. change (ch "-") with 45.
  (* the sign *)
  assert (Q : exists (sgn : list (N * N)) (m : text) (sg : Z) (negative : bool) (D : list (N * N)) (x1 : lexer),
    (p, c) :: l = (sgn ++ D)%list /\ map snd sgn = m /\ sign m sg
    /\ m = (if negative then str "-" else []) /\ followed a_digit (map snd D)
    /\ (if c =? 45 then next_char ;; ret true else ret false) x = (Ok negative, x1)
    /\ sees x1 D e /\ pending x1 = pending x).
  { unfold is_number_start in ST. change (ch "-") with 45 in ST. destruct (N.eqb_spec c 45) as [->|N].
    - destruct (next_some _ _ _ _ _ H) as (x1 & R & S & P).
      exists [(p, 45)], (str "-"), (-1)%Z, true, l, x1. conj; auto; try apply sign_minus.
      + destruct l as [|[q d] l]; cbn in *; [discriminate|]. apply digit_iff. exact ST.
      + erewrite bind_ok by exact R. reflexivity.
    - exists [], [], 1%Z, false, ((p, c) :: l), x. conj; auto; try apply sign_plus.
      cbn. apply digit_iff. cbn [andb] in ST. rewrite orb_false_r in ST. exact ST. }
  destruct Q as (sgn & m & sg & negative & D & x1 & E & Hsgn & Hsign & Hneg & HD & RS & S1 & P1).
  erewrite bind_ok by exact RS. clear RS. b0. b1. change (ch "0") with 48.
  rewrite E in *.
  assert (Start : p = pos (sgn ++ D) e) by (rewrite <- E; reflexivity).
  assert (Q : exists radix,
    let num := (if match option_map snd (hd_error D) with Some c0 => c0 =? 48 | None => false end
      then match radix_of (option_map snd (hd_error (tl D))) with
           | Some (radix, prefix) => next_char;; next_char;; lex_number_radix p radix negative prefix
           | None => lex_decimal_number p negative
           end
      else lex_decimal_number p negative) x1 in
    (exists t w l' x',
      (sgn ++ D)%list = (w ++ l')%list /\ number radix t (map snd w) (map snd l') /\ digits_end radix (map snd l')
      /\ num = (Ok (p, t, pos l' e), x') /\ sees x' l' e /\ pending x' = pending x)
    \/ fails num (sgn ++ D) e).
  { destruct D as [|[q0 c0] D]; [destruct HD|].
    cbn [hd_error option_map snd tl]. destruct (N.eqb_spec c0 48) as [->|N0].
    - destruct D as [|[q1 letter] D].
      + exists 10. cbn [hd_error option_map radix_of].
        destruct (decimal_number_spec x1 e p sgn [(q0, 48)] m sg negative) as [(t & w & l' & x' & A1 & A2 & A3 & A4 & A5 & A6)|F]; auto.
        * intros (c' & r & A & _). discriminate.
        * left. exists t, w, l', x'. conj; auto. congruence.
      + cbn [hd_error option_map snd].
        destruct (radix_of (Some letter)) as [[radix prefix]|] eqn:RO.
        * exists radix. apply radix_of_iff in RO. cbv zeta.
          destruct (next_some _ _ _ _ _ S1) as (x2 & R2 & S2 & P2).
          destruct (next_some _ _ _ _ _ S2) as (x3 & R3 & S3 & P3).
          erewrite bind_ok by exact R2. erewrite bind_ok by exact R3.
          destruct (radix_number_spec x3 e p sgn q0 q1 letter D m sg negative radix prefix)
            as [(t & w & l' & x' & A1 & A2 & A3 & A4 & A5 & A6)|F]; auto.
          left. exists t, w, l', x'. conj; auto. congruence.
        * exists 10. cbv zeta.
          destruct (decimal_number_spec x1 e p sgn ((q0, 48) :: (q1, letter) :: D) m sg negative)
            as [(t & w & l' & x' & A1 & A2 & A3 & A4 & A5 & A6)|F]; auto.
          -- intros (c' & r & A & (rx & pf & RL)). injection A as <- _. apply radix_of_iff in RL. congruence.
          -- left. exists t, w, l', x'. conj; auto. congruence.
    - exists 10. cbv zeta.
      destruct (decimal_number_spec x1 e p sgn ((q0, c0) :: D) m sg negative)
        as [(t & w & l' & x' & A1 & A2 & A3 & A4 & A5 & A6)|F]; auto.
      + intros (c' & r & A & _). cbn in A. congruence.
      + left. exists t, w, l', x'. conj; auto. congruence. }
  destruct Q as (radix & Q). cbv zeta in Q.
  destruct Q as [(t & w & l' & x' & A1 & A2 & A3 & A4 & A5 & A6)|(r & x' & F & B)].
  - erewrite bind_ok by exact A4. b0. change underscore with 95.
    destruct (match option_map snd (hd_error l') with Some c0 => c0 =? 95 | None => false end) eqn:U.
    + right. bp. eexists. exists x'. split; [reflexivity|].
      exists (map snd w), []. cbn [error_kind error_start error_end]. split.
      * rewrite A1, map_app. eapply bad_trailing_underscore; eauto.
        apply is_char in U as (q & l2 & ->). exists (map snd l2). reflexivity.
      * unfold locate. rewrite Nat.add_0_r, A1, skipn_map_length. reflexivity.
    + left. exists t, w, l', x'. conj; auto. exists radix. conj; auto.
      intros (r & R). apply not_char in U. apply U. exists r. exact R.
  - right. erewrite bind_err by exact F. exists r, x'. auto.
Qed.

(** After a dot *)
Lemma dot_access_spec x l e :
  sees x l e ->
  (~ followed a_digit (map snd l) /\ maybe_lex_dot_access x = (Ok tt, x))
  \/ exists s v l' x', l = (s ++ l')%list /\ decimal_int (map snd s) v /\ digits_end 10 (map snd l')
     /\ maybe_lex_dot_access x = (Ok tt, x') /\ sees x' l' e
     /\ pending x' = (pending x ++ [(pos l e, Int (map snd s) (Z.of_N v), pos l' e)])%list.
Proof.
  intros H. unfold maybe_lex_dot_access. bl.
  pose proof (sees_left _ _ _ H) as L.
  destruct (left x) as [|[|fuel]]; [lia|lia|]. cbn [dot_access_loop]. b0.
  destruct (match option_map snd (hd_error l) with Some c => is_digit c | None => false end) eqn:D.
  - right. assert (HD : followed a_digit (map snd l)).
    { destruct l as [|[q c] l]; [discriminate|]. cbn in *. apply digit_iff. exact D. }
    bp.
    destruct (int_number_spec x e (pos l e) [] l [] 1 false H sign_plus eq_refl eq_refl HD)
      as (s & v & l' & x' & -> & V & DE & RR & S & P).
    erewrite bind_ok by exact RR.
    destruct (run_emit _ _ _ (pos (s ++ l') e, Int ([] ++ map snd s) (1 * Z.of_N v), pos l' e) S) as (x2 & R2 & S2 & P2).
    erewrite bind_ok by exact R2. b0.
    assert (match option_map snd (hd_error l') with Some c => is_digit c | None => false end = false) as ->.
    { destruct l' as [|[q c] l']; [reflexivity|]. cbn. destruct DE as [DE _]. cbn in DE.
      rewrite a_digit_10 in DE. rewrite <- digit_iff in DE. destruct (is_digit c); congruence. }
    exists s, v, l', x2. conj; auto.
    rewrite P2, P. cbn [app]. replace (1 * Z.of_N v)%Z with (Z.of_N v) by lia. reflexivity.
  - left. split; [|reflexivity]. destruct l as [|[q c] l]; [intros []|]. cbn in *.
    intros F. apply digit_iff in F. congruence.
Qed.
