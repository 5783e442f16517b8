(** A whole source: one step of the lexer, and all of them. *)
From Coq Require Import String NArith ZArith Bool List Lia ZifyBool ZifyNat ZifyN.
From Verif Require Import Text TextProofs Strings StringsSpec SrcSpan Lexer LexerSpec LexerProofs LexerNumbers LexerStrings LexerSymbols.
Import ListNotations.
Open Scope N_scope.

(** ** One step *)
Lemma emitted_word t x x' (L w l' : list (N * N)) e o p :
  o = (Ok tt, x') -> sees x' l' e -> pending x' = (pending x ++ [(p, t, pos l' e)])%list -> pos L e = p ->
  L = (w ++ l')%list -> item [Tok t (map snd w)] (map snd l') -> emitted o x L e.
Proof.
  intros -> S' P' EP -> I. exists [Tok t (map snd w)], l'. split; [|split; [apply items_one; exact I|discriminate]].
  exists x', w. conj; auto.
  - rewrite P'. cbn [ahead]. rewrite skipn_map_length, EP. reflexivity.
  - unfold writing. cbn. rewrite app_nil_r. reflexivity.
Qed.

Lemma emitted_word_minus t x x1 (L w l' : list (N * N)) e o p :
  o = check_for_minus x1 -> sees x1 l' e -> pending x1 = (pending x ++ [(p, t, pos l' e)])%list -> pos L e = p ->
  L = (w ++ l')%list ->
  (~ negative_ahead (map snd l') -> item [Tok t (map snd w)] (map snd l')) ->
  (forall rest, map snd l' = 45 :: rest -> followed a_digit rest -> item [Tok t (map snd w); Tok (Symbol Minus) (str "-")] rest) ->
  emitted o x L e.
Proof.
  intros -> S1 P1 EP -> I1 I2. unfold check_for_minus. b0. b1. chs.
  destruct (match option_map snd (hd_error l') with Some c => c =? 45 | None => false end) eqn:E.
  - apply is_char in E as (q & l2 & ->). cbn [tl hd_error option_map snd].
    cbn [andb]. destruct (is_number_start 45 (option_map snd (hd_error l2))) eqn:NS.
    + unfold eat_single_char. bp. bn S1. cbv beta iota. bp.
      destruct (run_emit _ _ _ (q, Symbol Minus, pos l2 e) S) as (x2 & R2 & S2 & P2). rewrite R2.
      exists [Tok t (map snd w); Tok (Symbol Minus) (str "-")], l2. split; [|split; [|discriminate]].
      * exists x2, (w ++ [(q, 45)])%list. conj; auto.
        -- rewrite P2, P, P1, <- app_assoc. cbn [ahead length]. rewrite skipn_map_length, EP. reflexivity.
        -- rewrite <- app_assoc. reflexivity.
        -- rewrite map_app. unfold writing. cbn. reflexivity.
      * apply items_one. apply I2; [reflexivity|]. destruct l2 as [|[q2 d] l2]; cbn in *; [discriminate|].
        apply digit_iff. exact NS.
    + eapply emitted_word; [reflexivity|exact S1|exact P1|exact EP|reflexivity|]. apply I1.
      intros (d & r & F & D). cbn in F. injection F as F. destruct l2 as [|[q2 d2] l2]; [discriminate|].
      cbn in *. injection F as -> F. apply digit_iff in D. congruence.
  - cbn [andb]. eapply emitted_word; [reflexivity|exact S1|exact P1|exact EP|reflexivity|]. apply I1.
    intros (d & r & F & D). destruct l' as [|[q2 d2] l2]; [discriminate|]. cbn in *. injection F as -> F. discriminate.
Qed.

Lemma run_emit_after (m : M spanned) x t x1 l e :
  m x = (Ok t, x1) -> sees x1 l e -> pending x1 = pending x ->
  forall (k : M unit), exists x', (let! n := m in emit n ;; k) x = k x' /\ sees x' l e /\ pending x' = (pending x ++ [t])%list.
Proof.
  intros R S P k. destruct (run_emit _ _ _ t S) as (x' & R' & S' & P'). exists x'.
  erewrite bind_ok by exact R. erewrite bind_ok by exact R'. conj; auto. congruence.
Qed.
Lemma run_emit_last (m : M spanned) x t x1 l e :
  m x = (Ok t, x1) -> sees x1 l e -> pending x1 = pending x ->
  exists x', (let! n := m in emit n) x = (Ok tt, x') /\ sees x' l e /\ pending x' = (pending x ++ [t])%list.
Proof.
  intros R S P. destruct (run_emit _ _ _ t S) as (x' & R' & S' & P'). exists x'.
  erewrite bind_ok by exact R. conj; auto. congruence.
Qed.

Lemma look_alike_iff c : existsb (N.eqb c) visually_similar = true <-> In c look_alikes.
Proof.
  rewrite existsb_exists. split.
  - intros (d & I & E). apply N.eqb_eq in E. subst d. cbn in I. cbn. intuition.
  - intros I. exists c. split; [|apply N.eqb_refl]. cbn in I. cbn. intuition.
Qed.

Lemma consume_character_spec x p c l e :
  sees x ((p, c) :: l) e -> placed ((p, c) :: l) e ->
  is_upname_start c = false -> is_name_start c = false ->
  is_number_start c (option_map snd (hd_error l)) = false ->
  consumed (consume_character c x) x ((p, c) :: l) e.
Proof.
  intros H PL NU NN ND. unfold consume_character.
  destruct (single_character c) as [s|] eqn:SC; [apply single_spec; auto|].
  change double_quote with 34. change newline with 10. change space with 32. change tab with 9. change form_feed with 12. chs.
  destruct (N.eqb_spec c 34) as [->|N1].
  { destruct (lex_string_spec _ _ _ _ H PL) as [(w & q & l' & x1 & -> & B & R & S & P)|F].
    - destruct (run_emit_last _ _ _ _ _ _ R S P) as (x2 & R2 & S2 & P2). rewrite R2. left.
      eapply (emitted_word _ _ _ _ ((p, 34) :: w ++ [(q, 34)])); [reflexivity|exact S2|exact P2|reflexivity| |].
      + cbn. rewrite <- app_assoc. reflexivity.
      + cbn. rewrite map_app. apply item_string. exact B.
    - right. destruct F as (r & x1 & R & F). erewrite bind_err by exact R. exists r, x1. auto. }
  destruct (N.eqb_spec c 61) as [->|N2]; [apply equals_spec; auto|].
  bp.
  destruct (N.eqb_spec c 43) as [->|N3]; [apply plus_spec; auto|].
  destruct (N.eqb_spec c 42) as [->|N4]; [apply star_spec; auto|].
  destruct (N.eqb_spec c 47) as [->|N5]; [apply slash_spec; auto|].
  destruct (N.eqb_spec c 37) as [->|N6]; [apply percent_spec; auto|].
  destruct (N.eqb_spec c 124) as [->|N7]; [apply bar_spec; auto|].
  destruct (N.eqb_spec c 38) as [->|N8]; [apply ampersand_spec; auto|].
  destruct (N.eqb_spec c 45) as [->|N9]; [apply minus_spec; auto|].
  destruct (N.eqb_spec c 33) as [->|N10]; [apply bang_spec; auto|].
  destruct (N.eqb_spec c 60) as [->|N11]; [apply lt_spec; auto|].
  destruct (N.eqb_spec c 62) as [->|N12]; [apply gt_spec; auto|].
  destruct (N.eqb_spec c 46) as [->|N13]; [apply dot_spec; auto|].
  destruct ((c =? 10) || (c =? 32) || (c =? 9) || (c =? 12)) eqn:WS.
  { left. bn H. bp. destruct (N.eqb_spec c 10) as [->|N14].
    - destruct (run_emit _ _ _ (p, NewLine, pos l e) S) as (x2 & R2 & S2 & P2). rewrite R2.
      eapply (emitted_word _ _ _ _ [(p, 10)]); [reflexivity|exact S2|rewrite P2, P; reflexivity|reflexivity|reflexivity|].
      apply item_newline.
    - exists [Gap [c]], l. split; [|split; [|discriminate]].
      + exists x0, [(p, c)]. conj; auto. rewrite P. cbn. rewrite app_nil_r. reflexivity.
      + apply items_one. apply item_blank. unfold blank. lia. }
  right. destruct (existsb (N.eqb c) visually_similar) eqn:V.
  - apply look_alike_iff in V. eexists. exists x. split; [reflexivity|]. exists [], []. split; [|reflexivity].
    cbn. apply bad_look_alike. exact V.
  - eexists. exists x. split; [reflexivity|]. exists [], []. split; [|reflexivity].
    cbn [error_kind map snd]. apply bad_character.
    + unfold is_upname_start, is_name_start, underscore, is_number_start, single_character in *.
      intros [[W|[W|[W|W]]]|[W|W]].
      * unfold a_digit, between in W. apply digit_iff in W. change (ch "-") with 45 in ND.
        destruct (is_digit c); [|discriminate]. discriminate ND.
      * apply lower_iff in W. rewrite W, orb_true_r in NN. discriminate.
      * apply upper_iff in W. congruence.
      * subst c. discriminate.
      * unfold blank in W. lia.
      * cbn in W. repeat (destruct W as [W|W]; [subst c; try contradiction; discriminate|]). contradiction.
    + rewrite <- look_alike_iff. congruence.
Qed.

Lemma consume_normal_spec x l e :
  sees x l e -> placed l e -> l <> [] -> consumed (consume_normal x) x l e.
Proof.
  intros H PL NE. destruct l as [|[p c] l]; [congruence|]. clear NE.
  unfold consume_normal. b0. b1.
  destruct (is_upname_start c) eqn:U.
  { destruct (lex_upname_spec _ _ _ _ _ H U) as (w & l' & x1 & -> & F & NF & R & S & P).
    destruct (run_emit_last _ _ _ _ _ _ R S P) as (x2 & R2 & S2 & P2). rewrite R2. left.
    eapply (emitted_word _ _ _ _ ((p, c) :: w)); [reflexivity|exact S2|exact P2|reflexivity|reflexivity|].
    apply item_upname; auto. apply upper_iff. exact U. }
  destruct (is_name_start c) eqn:NS.
  { destruct (lex_name_spec _ _ _ _ _ H NS) as (t & w & l' & x1 & -> & W & NF & R & S & P).
    destruct (run_emit_after _ _ _ _ _ _ R S P check_for_minus) as (x2 & R2 & S2 & P2). rewrite R2. left.
    eapply (emitted_word_minus t _ x2 _ ((p, c) :: w)); [reflexivity|exact S2|exact P2|reflexivity|reflexivity| |].
    - intros NA. apply item_word; auto.
    - intros rest E D. apply item_word_minus; auto. }
  destruct (is_number_start c (option_map snd (hd_error l))) eqn:ND.
  { destruct (lex_number_spec _ _ _ _ _ H PL ND) as [(t & w & l' & x1 & E & W & R & S & P)|F].
    - destruct (run_emit_after _ _ _ _ _ _ R S P check_for_minus) as (x2 & R2 & S2 & P2). rewrite R2. left.
      eapply (emitted_word_minus t _ x2 _ w); [reflexivity|exact S2|exact P2|reflexivity|exact E| |].
      + intros NA. apply item_number; auto.
      + intros rest E' D. apply item_number_minus; auto. rewrite <- E'. exact W.
    - right. destruct F as (r & x1 & R & F). erewrite bind_err by exact R. exists r, x1. auto. }
  apply consume_character_spec; auto.
Qed.

Lemma consume_normal_end x e : sees x [] e ->
  exists x', consume_normal x = (Ok tt, x') /\ sees x' [] e /\ pending x' = (pending x ++ [(e, EndOfFile, e)])%list.
Proof.
  intros H. unfold consume_normal. b0. b1. bp.
  destruct (run_emit _ _ _ (e, EndOfFile, e) H) as (x2 & R2 & S2 & P2). exists x2. auto.
Qed.

(** ** Facts about items *)
Definition is_token (p : piece) : bool := match p with Tok _ _ => true | Gap _ => false end.
Definition tokens_of (ps : list piece) : nat := length (filter is_token ps).

Lemma a_number_nonempty t w rest : a_number t w rest -> (1 <= length w)%nat.
Proof.
  intros (radix & NU & _).
  destruct NU as [m sg s v rest _ (_ & D) _ _|m sg radix letter prefix s v rest _ _ _ _ _
                 |m sg s v f w0 rest _ (_ & D) _ _|m sg s v f w0 n sg' e x rest _ (_ & D) _ _ _ _];
    rewrite !app_length; try (destruct s; [contradiction|]); cbn; lia.
Qed.
Lemma word_nonempty t w : word t w -> (1 <= length w)%nat.
Proof. intros [k|c w' _ _ _|w' _]; cbn; try lia. destruct k; cbn; lia. Qed.

Lemma item_size ps rest : item ps rest -> (1 <= length (writing ps) /\ tokens_of ps <= length (writing ps))%nat.
Proof.
  unfold writing, tokens_of.
  destruct 1; cbn; rewrite ?app_length, ?app_nil_r; cbn; try lia.
  - apply word_nonempty in H. lia.
  - apply word_nonempty in H. lia.
  - apply a_number_nonempty in H. lia.
  - apply a_number_nonempty in H. lia.
  - destruct s; cbn; lia.
  - destruct H; cbn; lia.
  - destruct H as (_ & D). destruct s; [contradiction|]. cbn. lia.
Qed.
Lemma writing_app ps qs : writing (ps ++ qs) = (writing ps ++ writing qs)%list.
Proof. apply flat_map_app. Qed.
Lemma items_size ps rest : items ps rest ->
  (tokens_of ps <= length (writing ps) /\ (ps <> [] -> 1 <= length (writing ps)))%nat.
Proof.
  induction 1 as [rest|ps qs rest I IS IH].
  - cbn. split; [lia|congruence].
  - apply item_size in I. unfold tokens_of in *. rewrite writing_app, filter_app, !app_length. split; [lia|]. intros _. lia.
Qed.
Lemma items_app ps qs rest : items ps (writing qs ++ rest) -> items qs rest -> items (ps ++ qs) rest.
Proof.
  intros I J. remember (writing qs ++ rest)%list as r eqn:E. induction I as [r|ps ps' r I IS IH]; [exact J|].
  rewrite <- app_assoc. apply items_cons; [|apply IH; exact E].
  rewrite writing_app, <- app_assoc, <- E. exact I.
Qed.

Lemma ahead_length e ps : forall l, length (ahead l e ps) = tokens_of ps.
Proof.
  unfold tokens_of. induction ps as [|[w|t w] ps IH]; intros l; cbn; auto.
Qed.

Definition no_end (p : piece) : Prop := match p with Tok EndOfFile _ => False | _ => True end.
Lemma item_no_end ps rest : item ps rest -> Forall no_end ps.
Proof.
  destruct 1; repeat constructor; cbn; auto.
  - destruct H; exact Logic.I.
  - destruct H; exact Logic.I.
  - destruct H as (r & [ ] & _); exact Logic.I.
  - destruct H as (r & [ ] & _); exact Logic.I.
  - destruct H; repeat constructor; exact Logic.I.
Qed.
Lemma items_no_end ps rest : items ps rest -> Forall no_end ps.
Proof.
  induction 1 as [|ps qs rest I IS IH]; [constructor|]. apply Forall_app. split; [|exact IH]. eapply item_no_end; eassumption.
Qed.
Definition not_end (t : spanned) : Prop := snd (fst t) <> EndOfFile.
Lemma ahead_no_end e ps : forall l, Forall no_end ps -> Forall not_end (ahead l e ps).
Proof.
  induction ps as [|[w|t w] ps IH]; intros l F; cbn; auto; inversion F as [|a b F1 F2]; subst; auto.
  constructor; auto. intros E. cbn in E. subst t. exact F1.
Qed.

(** ** The next token *)
Definition reads (l : list (N * N)) (ps : list piece) (l' : list (N * N)) : Prop :=
  (exists w, l = (w ++ l')%list /\ map snd w = writing ps) /\ items ps (map snd l').

Lemma reads_app l ps l' qs l'' : reads l ps l' -> reads l' qs l'' -> reads l (ps ++ qs) l''.
Proof.
  intros ((w & -> & W) & I) ((v & -> & V) & J). split.
  - exists (w ++ v)%list. rewrite <- app_assoc, map_app, W, V, writing_app. auto.
  - apply items_app; [|exact J]. rewrite map_app, V in I. exact I.
Qed.
Lemma reads_nil l : reads l [] l.
Proof. split; [exists []; auto|constructor]. Qed.
Lemma reads_skipn l ps l' : reads l ps l' -> skipn (length (writing ps)) l = l'.
Proof. intros ((w & -> & W) & _). rewrite <- W. apply skipn_map_length. Qed.
Lemma reads_length l ps l' : reads l ps l' -> (length l = length (writing ps) + length l')%nat.
Proof. intros ((w & -> & W) & _). rewrite app_length, <- W, map_length. reflexivity. Qed.

Lemma inner_next_spec e n : forall l x fuel,
  (length l <= n)%nat -> (length l + 2 <= fuel)%nat -> sees x l e -> placed l e -> pending x = [] ->
  (exists ps l' t x', inner_next fuel x = (Ok t, x') /\ t :: pending x' = ahead l e ps
     /\ reads l ps l' /\ sees x' l' e /\ placed l' e)
  \/ (exists ps t x', inner_next fuel x = (Ok (t, EndOfFile, t), x') /\ ahead l e ps = [] /\ reads l ps [])
  \/ (exists ps l' r x', inner_next fuel x = (Err r, x') /\ ahead l e ps = [] /\ reads l ps l' /\ failing r l' e).
Proof.
  induction n as [|n IH]; intros l x fuel LN LF H PL HP;
    (destruct fuel as [|fuel]; [lia|]); cbn [inner_next]; rewrite HP.
  - destruct l; [|cbn in LN; lia]. right. left.
    destruct (consume_normal_end _ _ H) as (x1 & R & S & P). erewrite bind_ok by exact R. rewrite HP in P.
    destruct fuel as [|fuel]; [cbn in LF; lia|]. cbn [inner_next]. rewrite P. cbn [app].
    exists [], e, (set_pending [] x1). conj; auto. apply reads_nil.
  - assert (NE : l = [] \/ l <> []) by (destruct l; [left; auto|right; discriminate]).
    destruct NE as [->|NE].
    { right. left.
      destruct (consume_normal_end _ _ H) as (x1 & R & S & P). erewrite bind_ok by exact R. rewrite HP in P.
      destruct fuel as [|fuel]; [cbn in LF; lia|]. cbn [inner_next]. rewrite P. cbn [app].
      exists [], e, (set_pending [] x1). conj; auto. apply reads_nil. }
    destruct (consume_normal_spec _ _ _ H PL NE) as [(ps & l' & (x1 & w & R & S & P & E & W) & I & N)|(r & x1 & R & F)].
    + erewrite bind_ok by exact R. rewrite HP in P. cbn [app] in P.
      assert (RD : reads l ps l') by (split; [exists w; auto|exact I]).
      pose proof (reads_length _ _ _ RD) as LL. pose proof (proj2 (items_size _ _ I) N).
      assert (PL' : placed l' e) by (rewrite E in PL; eapply placed_app; exact PL).
      destruct (ahead l e ps) as [|t q] eqn:A.
      * destruct (IH l' x1 fuel) as [(qs & l'' & t & x' & R' & T & RD' & S' & PL'')|[(qs & t & x' & R' & T & RD')|(qs & l'' & r & x' & R' & T & RD' & F)]];
          auto; try lia.
        -- left. exists (ps ++ qs)%list, l'', t, x'. conj; auto; [|eapply reads_app; eauto].
           rewrite ahead_app, A, (reads_skipn _ _ _ RD). exact T.
        -- right. left. exists (ps ++ qs)%list, t, x'. conj; auto; [|eapply reads_app; eauto].
           rewrite ahead_app, A, (reads_skipn _ _ _ RD). exact T.
        -- right. right. exists (ps ++ qs)%list, l'', r, x'. conj; auto; [|eapply reads_app; eauto].
           rewrite ahead_app, A, (reads_skipn _ _ _ RD). exact T.
      * left. destruct fuel as [|fuel]; [lia|]. cbn [inner_next]. rewrite P.
        exists ps, l', t, (set_pending q x1). conj; auto.
    + right. right. erewrite bind_err by exact R. exists [], l, r, x1. conj; auto. apply reads_nil.
Qed.

Lemma inner_next_pending t q x fuel : pending x = t :: q -> inner_next (Datatypes.S fuel) x = (Ok t, set_pending q x).
Proof. intros E. cbn [inner_next]. rewrite E. reflexivity. Qed.

(** ** All tokens *)
Definition ends (o : ending) (l' : list (N * N)) (e : N) : Prop :=
  (o = Finished /\ l' = []) \/ (exists r, o = Failed r /\ failing r l' e).

Lemma next_ok t x x' : inner_next (left x) x = (Ok t, x') -> not_end t -> next x = (Ok (Some t), x').
Proof.
  intros R N. unfold next, get_left. unfold bind at 1. erewrite bind_ok by exact R.
  destruct t as [[a t] b]. unfold not_end in N. cbn in N. destruct t; try reflexivity. congruence.
Qed.

Lemma collect_spec e : forall fuel x l,
  (length (pending x) + length l < fuel)%nat -> sees x l e -> placed l e -> Forall not_end (pending x) ->
  exists ps l' o, collect fuel x = (pending x ++ ahead l e ps, o)%list /\ reads l ps l' /\ ends o l' e.
Proof.
  induction fuel as [|fuel IH]; intros x l LF H PL NE; [lia|]. cbn [collect].
  pose proof (sees_left _ _ _ H) as LE.
  destruct (pending x) as [|t q] eqn:HP.
  - destruct (inner_next_spec e (length l) l x (left x)) as
      [(ps & l' & t & x' & R & T & RD & S & PL')|[(ps & t & x' & R & T & RD)|(ps & l' & r & x' & R & T & RD & F)]];
      auto; try lia.
    + pose proof (items_no_end _ _ (proj2 RD)) as IE. apply (ahead_no_end e ps l) in IE. rewrite <- T in IE.
      inversion IE as [|a b IE1 IE2]; subst.
      rewrite (next_ok _ _ _ R IE1).
      assert (LQ : length (t :: pending x') = tokens_of ps) by (rewrite T; apply ahead_length).
      pose proof (reads_length _ _ _ RD). pose proof (proj1 (items_size _ _ (proj2 RD))).
      destruct (IH x' l') as (qs & l'' & o & C & RD' & O); auto; [cbn in *; lia|].
      rewrite C. exists (ps ++ qs)%list, l'', o. conj; auto; [|eapply reads_app; eauto].
      rewrite ahead_app, <- T, (reads_skipn _ _ _ RD). reflexivity.
    + exists ps, [], Finished. conj; auto; [|left; auto].
      unfold next, get_left. unfold bind at 1. erewrite bind_ok by exact R. rewrite T. reflexivity.
    + exists ps, l', (Failed r). conj; auto; [|right; eauto].
      unfold next, get_left. unfold bind at 1. erewrite bind_err by exact R. rewrite T. reflexivity.
  - destruct (left x) as [|f] eqn:LX; [lia|].
    inversion NE as [|a b NE1 NE2]; subst.
    rewrite (next_ok t x (set_pending q x)); [|rewrite LX; apply inner_next_pending; exact HP|exact NE1].
    destruct (IH (set_pending q x) l) as (qs & l'' & o & C & RD' & O); auto; [cbn in *; lia|].
    rewrite C. exists qs, l'', o. conj; auto.
Qed.

(** ** The start *)
Lemma collapse_characters n : forall s i, (length s <= n)%nat -> collapse (char_indices i s) = characters i s.
Proof.
  induction n as [|n IH]; intros [|c s] i L; cbn [char_indices collapse characters]; auto; cbn in L; [lia|].
  destruct (N.eqb_spec c 13) as [->|N1].
  - destruct s as [|d s]; cbn [char_indices]; auto.
    destruct (N.eqb_spec d 10) as [->|N2].
    + rewrite IH by (cbn in L; lia). f_equal. f_equal. cbn. lia.
    + rewrite <- IH by (cbn in *; lia). reflexivity.
  - rewrite IH by lia. reflexivity.
Qed.

Lemma characters_nil i s : characters i s = [] <-> s = [].
Proof.
  split; [|intros ->; reflexivity]. destruct s as [|c s]; auto. cbn. destruct (c =? 13); [|discriminate].
  destruct s as [|d s]; [discriminate|]. destruct (d =? 10); discriminate.
Qed.
Definition end_of (cs : list (N * N)) : N := fst (last cs (0, 0)) + 1.

Lemma len_utf8_bounds c : (1 <= len_utf8 c <= 4)%nat.
Proof. unfold len_utf8. repeat destruct (_ <? _); lia. Qed.
Lemma len_utf8_ascii c : c < 128 -> len_utf8 c = 1%nat.
Proof. intros H. unfold len_utf8. destruct (N.ltb_spec c 128); [reflexivity|lia]. Qed.

Lemma characters_hd i s : match characters i s with (p, _) :: _ => p = i | [] => s = [] end.
Proof.
  destruct s as [|c s]; cbn; auto. destruct (c =? 13); [|reflexivity].
  destruct s as [|d s]; [reflexivity|]. destruct (d =? 10); reflexivity.
Qed.

Lemma placed_characters n : forall s i e, (length s <= n)%nat ->
  (characters i s <> [] -> e = end_of (characters i s)) -> placed (characters i s) e.
Proof.
  assert (K : forall (p c e i : N) s,
    (placed (characters i s) e) -> ((p, c) :: characters i s <> [] -> e = end_of ((p, c) :: characters i s)) ->
    p < i -> (c < 128 -> c <> 10 -> i = p + 1) -> placed ((p, c) :: characters i s) e).
  { intros p c e i s PL E LT A. pose proof (characters_hd i s) as HD. cbn [placed].
    destruct (characters i s) as [|[q d] cs] eqn:C; cbn [pos].
    - assert (e = p + 1) by (apply E; discriminate). conj; auto. lia.
    - subst q. conj; auto. }
  assert (T : forall (p c e : N) (cs : list (N * N)),
    ((p, c) :: cs <> [] -> e = end_of ((p, c) :: cs)) -> cs <> [] -> e = end_of cs).
  { intros p c e cs E N. rewrite E by discriminate. destruct cs; [congruence|reflexivity]. }
  induction n as [|n IH]; intros [|c s] i e L E; cbn [characters]; try exact Logic.I; cbn in L; [lia|].
  cbn [characters] in E.
  destruct (N.eqb_spec c 13) as [->|N1].
  - destruct s as [|d s].
    + apply (K _ _ _ (i + 1) []); [exact Logic.I|exact E|lia|lia].
    + destruct (N.eqb_spec d 10) as [->|N2].
      * apply K; [apply IH; [cbn in L; lia|eapply T; exact E]|exact E|lia|lia].
      * apply K; [apply IH; [cbn in *; lia|eapply T; exact E]|exact E|lia|lia].
  - pose proof (len_utf8_bounds c). apply K; [apply IH; [lia|eapply T; exact E]|exact E|lia|].
    intros A _. rewrite (len_utf8_ascii _ A). lia.
Qed.

Lemma new_handler_spec l : h_ok (new_handler l) /\ h_list (new_handler l) = collapse l.
Proof.
  unfold h_ok, h_list, h_raw, new_handler, shift. cbn.
  destruct l as [|a [|b l]]; cbn; repeat split; auto; discriminate.
Qed.

Lemma two_characters x cs :
  h_ok (chars x) -> h_list (chars x) = cs -> location1 x = 0 ->
  sees (snd (next_char (snd (next_char x)))) cs (end_of cs)
  /\ pending (snd (next_char (snd (next_char x)))) = pending x.
Proof.
  intros HO HL L1. unfold next_char at 2 4.
  pose proof (handler_next_spec _ HO) as (A & B & C & _). destruct (handler_next (chars x)) as [n1 h1]. cbn in A, B, C. cbn [snd].
  unfold next_char. cbn [chars].
  pose proof (handler_next_spec _ C) as (A2 & B2 & C2 & _). destruct (handler_next h1) as [n2 h2]. cbn in A2, B2, C2. cbn [snd pending].
  split; [|reflexivity]. rewrite B in *. rewrite HL in *. unfold sees, end_of. cbn [chars char0 char1 location0 location1].
  destruct cs as [|[p c] [|[q d] cs]]; cbn in *; subst n1 n2; cbn; rewrite ?L1; auto 10.
Qed.

Lemma start_sees s :
  pending (make_tokenizer s) = []
  /\ sees (make_tokenizer s) (source_characters s) (end_of (source_characters s))
  /\ placed (source_characters s) (end_of (source_characters s)).
Proof.
  destruct (new_handler_spec (char_indices 0 s)) as (HO & HL).
  rewrite (collapse_characters (length s)) in HL by lia.
  unfold make_tokenizer.
  set (x0 := {| chars := new_handler (char_indices 0 s); pending := []; char0 := None; char1 := None;
                location0 := 0; location1 := 0 |}).
  destruct (two_characters x0 (characters 0 s) HO HL eq_refl) as (S & P).
  set (x2 := snd (next_char (snd (next_char x0)))) in *. clearbody x2. cbn in P. clear HO HL x0.
  rewrite (sees_char0 _ _ _ S).
  destruct s as [|c s].
  { cbn in *. conj; auto. }
  unfold source_characters.
  destruct (N.eqb_spec c 0xFEFF) as [->|N1].
  - change (characters 0 (65279 :: s)) with ((0, 65279) :: characters 3 s) in *.
    cbn [hd_error option_map snd]. change (65279 =? byte_order_mark) with true. cbv iota.
    destruct (next_some _ _ _ _ _ S) as (x3 & R & S3 & P3). rewrite R. cbn [snd].
    assert (E : end_of ((0, 65279) :: characters 3 s) = end_of (characters 3 s)).
    { unfold end_of. destruct (characters 3 s); reflexivity. }
    rewrite E in S3. conj; auto; [congruence|].
    eapply placed_characters; [apply le_n|reflexivity].
  - assert (HD : hd_error (map snd (characters 0 (c :: s))) = Some (if c =? 13 then 10 else c)).
    { cbn. destruct (c =? 13); [|reflexivity]. destruct s as [|d s]; [reflexivity|]. destruct (d =? 10); reflexivity. }
    assert (NB : match option_map snd (hd_error (characters 0 (c :: s))) with
                 | Some c0 => c0 =? byte_order_mark | None => false end = false).
    { destruct (characters 0 (c :: s)) as [|[p d] cs]; [reflexivity|]. cbn in *. injection HD as ->.
      unfold byte_order_mark. destruct (N.eqb_spec c 13); lia. }
    destruct (option_map snd (hd_error (characters 0 (c :: s)))) as [d|]; [rewrite NB|];
      (conj; auto; eapply placed_characters; [apply le_n|reflexivity]).
Qed.

(** ** Positions *)
Lemma byte_of_pos cs k : (k <= length cs)%nat -> byte_of cs k = pos (skipn k cs) (end_of cs).
Proof.
  unfold byte_of. intros L. destruct (nth_error cs k) as [[i c]|] eqn:E.
  - apply nth_error_split in E as (a & b & -> & <-). rewrite skipn_app, skipn_all, Nat.sub_diag. reflexivity.
  - apply nth_error_None in E. assert (k = length cs) as -> by lia. rewrite skipn_all. reflexivity.
Qed.
Lemma skipn_skipn (cs : list (N * N)) : forall k n, skipn n (skipn k cs) = skipn (k + n) cs.
Proof.
  induction cs as [|a cs IH]; intros k n; [rewrite !skipn_nil; reflexivity|]. destruct k; cbn; auto.
Qed.
Lemma spans_ahead cs ps : forall k, (k + length (writing ps) <= length cs)%nat ->
  spans cs k ps = ahead (skipn k cs) (end_of cs) ps.
Proof.
  induction ps as [|[w|t w] ps IH]; intros k L; cbn [spans ahead]; auto;
    unfold writing in L; cbn [flat_map written] in L; rewrite app_length in L; fold (writing ps) in L.
  - rewrite IH by lia. rewrite skipn_skipn. reflexivity.
  - rewrite IH, !byte_of_pos by lia. rewrite skipn_skipn. reflexivity.
Qed.
Lemma locate_located cs k kind before marked : (k + length before + length marked <= length cs)%nat ->
  locate (skipn k cs) (end_of cs) kind before marked = located cs k kind before marked.
Proof.
  intros L. unfold locate, located. rewrite !byte_of_pos by lia. rewrite !skipn_skipn.
  rewrite Nat.add_assoc. reflexivity.
Qed.

Lemma bad_length kind before marked s : bad kind before marked s -> (length before + length marked <= length s)%nat.
Proof.
  destruct 1; cbn [length app]; rewrite ?app_length; cbn [length app]; rewrite ?app_length; cbn [length str app]; try lia.
  - subst. rewrite app_length. lia.
  - apply (f_equal (@length N)) in H1. rewrite !app_length in H1. cbn in H1. lia.
Qed.

Lemma characters_length n : forall s i, (length s <= n)%nat -> (length (characters i s) <= length s)%nat.
Proof.
  induction n as [|n IH]; intros [|c s] i L; cbn [characters length] in *; try lia.
  destruct (c =? 13).
  - destruct s as [|d s]; [cbn; lia|]. cbn [length] in *.
    destruct (d =? 10); cbn [length]; [specialize (IH s (i + 2)); lia|specialize (IH (d :: s) (i + 1)); cbn [length] in IH; lia].
  - cbn [length]. specialize (IH s (i + N.of_nat (len_utf8 c))). lia.
Qed.
Lemma source_characters_length s : (length (source_characters s) <= length s)%nat.
Proof.
  destruct s as [|c s]; [cbn; lia|]. unfold source_characters. destruct (c =? 0xFEFF).
  - pose proof (characters_length _ s 3 (le_n _)). cbn. lia.
  - apply (characters_length _ _ _ (le_n _)).
Qed.

Lemma lex_spec s : exists ps rest,
  source_text s = (writing ps ++ rest)%list /\ items ps rest
  /\ fst (lex s) = spans (source_characters s) 0 ps
  /\ ((snd (lex s) = Finished /\ rest = [])
      \/ (exists r before marked, snd (lex s) = Failed r /\ bad (error_kind r) before marked rest
           /\ (error_start r, error_end r)
              = located (source_characters s) (length (writing ps)) (error_kind r) before marked)).
Proof.
  destruct (start_sees s) as (P & S & PL). pose proof (source_characters_length s) as LS.
  unfold lex.
  destruct (collect_spec (end_of (source_characters s)) (Datatypes.S (length s)) (make_tokenizer s) (source_characters s)) as (ps & l' & o & C & RD & O);
    auto; [rewrite P; cbn; lia|rewrite P; constructor|].
  rewrite C, P. cbn [fst snd app].
  pose proof (reads_length _ _ _ RD) as LR. pose proof (reads_skipn _ _ _ RD) as SK.
  destruct RD as ((w & E & W) & I).
  exists ps, (map snd l'). conj; auto.
  - unfold source_text. rewrite E, map_app, W. reflexivity.
  - rewrite spans_ahead by lia. reflexivity.
  - destruct O as [(-> & ->)|(r & -> & before & marked & B & L)]; [left; auto|right].
    exists r, before, marked. conj; auto. rewrite L, <- SK. apply locate_located.
    apply bad_length in B. rewrite map_length in B. lia.
Qed.
