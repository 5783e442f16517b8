(** The texts of tokens, and minus signs. *)
From Coq Require Import String NArith ZArith Bool List Lia ZifyBool ZifyNat ZifyN.
From Verif Require Import Text TextProofs Strings StringsSpec SrcSpan Lexer LexerSpec LexerProofs LexerNumbers LexerSymbols LexerWhole LexerSpans.
Import ListNotations.
Open Scope N_scope.

(** ** Parts of a source *)
Lemma characters_cut n : forall s i k, (length s <= n)%nat -> (k < length (characters i s))%nat ->
  exists a b, s = (a ++ b)%list /\ pos (skipn k (characters i s)) 0 = i + bytes a
    /\ skipn k (characters i s) = characters (i + bytes a) b /\ firstn k (characters i s) = characters i a.
Proof.
  induction n as [|n IH]; intros [|c s] i k L E; try (cbn in E, L; lia).
  destruct k as [|k].
  - exists [], (c :: s). rewrite no_bytes. conj; auto.
    pose proof (characters_hd i (c :: s)). cbn [skipn]. destruct (characters i (c :: s)) as [|[p d] l]; [discriminate|exact H].
  - cbn [characters] in *. cbn [length] in L. destruct (N.eqb_spec c 13) as [->|N1].
    + destruct s as [|d s]; [cbn in E; lia|]. destruct (N.eqb_spec d 10) as [->|N2]; cbn [firstn skipn length] in *.
      * destruct (IH s (i + 2) k ltac:(cbn in L; lia) ltac:(lia)) as (a & b & -> & P & SK & FK).
        exists (13 :: 10 :: a), b.
        replace (i + bytes (13 :: 10 :: a)) with (i + 2 + bytes a) by by_bytes. conj; auto.
        rewrite FK. reflexivity.
      * destruct (IH (d :: s) (i + 1) k ltac:(cbn in *; lia) ltac:(lia)) as (a & b & E' & P & SK & FK).
        exists (13 :: a), b. rewrite E' in *.
        replace (i + bytes (13 :: a)) with (i + 1 + bytes a) by by_bytes. conj; auto.
        rewrite FK. destruct a as [|y a]; [reflexivity|]. cbn [app] in E'. injection E' as <- _.
        cbn [characters]. change (13 =? 13) with true. cbv iota. destruct (N.eqb_spec d 10); [contradiction|reflexivity].
    + cbn [firstn skipn length] in *.
      destruct (IH s (i + N.of_nat (len_utf8 c)) k ltac:(lia) ltac:(lia)) as (a & b & -> & P & SK & FK).
      exists (c :: a), b.
      replace (i + bytes (c :: a)) with (i + N.of_nat (len_utf8 c) + bytes a) by by_bytes. conj; auto.
      rewrite FK. cbn [characters]. destruct (N.eqb_spec c 13); [contradiction|reflexivity].
Qed.

Lemma characters_shift n : forall s i j, (length s <= n)%nat -> map snd (characters i s) = map snd (characters j s).
Proof.
  induction n as [|n IH]; intros [|c s] i j L; auto; [cbn in L; lia|]. cbn [characters length] in *.
  destruct (c =? 13); [|cbn [map snd]; f_equal; apply IH; lia].
  destruct s as [|d s]; [reflexivity|]. destruct (d =? 10); cbn [map snd]; f_equal; apply IH; cbn in *; lia.
Qed.

(** The end as the lexer sees it: in front of the last newline after a carriage return. *)
Lemma characters_end n : forall s i, (length s <= n)%nat -> s <> [] ->
  (exists u c, s = (u ++ [c])%list /\ 128 <= c /\ end_of (characters i s) = i + bytes u + 1)
  \/ (exists a b, s = (a ++ b)%list /\ characters i a = characters i s /\ i + bytes a = end_of (characters i s)).
Proof.
  induction n as [|n IH]; intros [|c s] i L NE; try congruence; [cbn in L; lia|]. cbn [length] in L.
  destruct s as [|d s].
  { destruct (N.ltb_spec c 128) as [LT|GE].
    - right. exists [c], []. conj; auto. unfold end_of. cbn [characters].
      rewrite bytes_cons, (len_utf8_ascii _ LT). destruct (c =? 13); reflexivity.
    - left. exists [], c. conj; auto. rewrite no_bytes. cbn [characters]. destruct (c =? 13); reflexivity. }
  destruct (N.eqb_spec c 13) as [->|N1].
  - destruct (N.eqb_spec d 10) as [->|N2].
    + destruct s as [|e s].
      * right. exists [13], [10]. conj; auto.
      * destruct (IH (e :: s) (i + 2) ltac:(cbn in *; lia) ltac:(discriminate)) as [(u & x & E & G & EE)|(a & b & E & CE & EE)].
        -- left. exists (13 :: 10 :: u), x. conj; [rewrite E; reflexivity|exact G|].
           transitivity (i + 2 + bytes u + 1); [|by_bytes]. rewrite <- EE. unfold end_of.
           change (characters i (13 :: 10 :: e :: s)) with ((i, 10) :: characters (i + 2) (e :: s)).
           pose proof (characters_hd (i + 2) (e :: s)). destruct (characters (i + 2) (e :: s)); [discriminate|reflexivity].
        -- right. exists (13 :: 10 :: a), b. rewrite E. conj; auto.
           ++ cbn [characters]. change (13 =? 13) with true. change (10 =? 10) with true. cbv iota. rewrite CE, E. reflexivity.
           ++ cbn [app]. rewrite <- E. 
              transitivity (i + 2 + bytes a); [by_bytes|]. rewrite EE. unfold end_of.
              change (characters i (13 :: 10 :: e :: s)) with ((i, 10) :: characters (i + 2) (e :: s)).
              pose proof (characters_hd (i + 2) (e :: s)). destruct (characters (i + 2) (e :: s)); [discriminate|reflexivity].
    + assert (CH : characters i (13 :: d :: s) = (i, 10) :: characters (i + 1) (d :: s)).
      { cbn [characters]. change (13 =? 13) with true. cbv iota. destruct (N.eqb_spec d 10); [contradiction|reflexivity]. }
      destruct (IH (d :: s) (i + 1) ltac:(cbn in *; lia) ltac:(discriminate)) as [(u & x & E & G & EE)|(a & b & E & CE & EE)].
      * left. exists (13 :: u), x. conj; [rewrite E; reflexivity|exact G|].
        transitivity (i + 1 + bytes u + 1); [|by_bytes]. rewrite <- EE, CH. unfold end_of.
        pose proof (characters_hd (i + 1) (d :: s)). destruct (characters (i + 1) (d :: s)); [discriminate|reflexivity].
      * right. exists (13 :: a), b. conj.
        -- rewrite E. reflexivity.
        -- rewrite CH, <- CE. cbn [characters]. change (13 =? 13) with true. cbv iota.
           destruct a as [|y a].
           ++ pose proof (characters_hd (i + 1) (d :: s)). rewrite <- CE in H. cbn in H. discriminate.
           ++ cbn [app] in E. injection E as <- _. destruct (N.eqb_spec d 10); [contradiction|reflexivity].
        -- rewrite CH. transitivity (i + 1 + bytes a); [by_bytes|]. rewrite EE. unfold end_of.
           pose proof (characters_hd (i + 1) (d :: s)). destruct (characters (i + 1) (d :: s)); [discriminate|reflexivity].
  - assert (CH : forall t, characters i (c :: t) = (i, c) :: characters (i + N.of_nat (len_utf8 c)) t).
    { intros t. cbn [characters]. destruct (N.eqb_spec c 13); [contradiction|reflexivity]. }
    destruct (IH (d :: s) (i + N.of_nat (len_utf8 c)) ltac:(cbn in *; lia) ltac:(discriminate)) as [(u & x & E & G & EE)|(a & b & E & CE & EE)].
    + left. exists (c :: u), x. conj; [rewrite E; reflexivity|exact G|].
      transitivity (i + N.of_nat (len_utf8 c) + bytes u + 1); [|by_bytes]. rewrite <- EE, CH. unfold end_of.
      pose proof (characters_hd (i + N.of_nat (len_utf8 c)) (d :: s)).
      destruct (characters (i + N.of_nat (len_utf8 c)) (d :: s)); [discriminate|reflexivity].
    + right. exists (c :: a), b. rewrite !CH. conj.
      * rewrite E. reflexivity.
      * rewrite CE. reflexivity.
      * transitivity (i + N.of_nat (len_utf8 c) + bytes a); [by_bytes|]. rewrite EE. unfold end_of.
        pose proof (characters_hd (i + N.of_nat (len_utf8 c)) (d :: s)).
        destruct (characters (i + N.of_nat (len_utf8 c)) (d :: s)); [discriminate|reflexivity].
Qed.

(** ** Tokens *)
Lemma spans_in cs ps : forall k st t en, In (st, t, en) (spans cs k ps) ->
  exists ps1 w ps2, ps = (ps1 ++ Tok t w :: ps2)%list /\ st = byte_of cs (k + length (writing ps1))
    /\ en = byte_of cs (k + length (writing ps1) + length w).
Proof.
  induction ps as [|[w|t' w] ps IH]; intros k st t en I; cbn [spans] in I; [contradiction| |].
  - destruct (IH _ _ _ _ I) as (ps1 & u & ps2 & -> & -> & ->). exists (Gap w :: ps1), u, ps2.
    unfold writing. cbn [flat_map written]. rewrite app_length, !Nat.add_assoc. auto.
  - destruct I as [E|I].
    + injection E as <- -> <-. exists [], w, ps. cbn. rewrite Nat.add_0_r. auto.
    + destruct (IH _ _ _ _ I) as (ps1 & u & ps2 & -> & -> & ->). exists (Tok t' w :: ps1), u, ps2.
      unfold writing. cbn [flat_map written]. rewrite app_length, !Nat.add_assoc. auto.
Qed.

Lemma items_in ps rest p : items ps rest -> In p ps -> exists qs r, item qs r /\ In p qs.
Proof.
  induction 1 as [|ps qs rest I IS IH]; intros IN; [contradiction|]. apply in_app_or in IN as [IN|IN]; eauto.
Qed.

Lemma tokens_cut s st t en : In (st, t, en) (fst (lex s)) ->
  cut_out s (st, t, en) \/ (exists u c, s = (u ++ [c])%list /\ 128 <= c /\ en = bytes u + 1).
Proof.
  intros IN. destruct (lex_spec s) as (ps & rest & T & I & F & _). rewrite F in IN. clear F.
  apply spans_in in IN as (ps1 & w & ps2 & -> & -> & ->). cbn [Nat.add].
  destruct (source_parts s) as (bom & s' & -> & Ecs & BOM).
  unfold source_text in T. rewrite Ecs in *. set (i := bytes bom) in *. set (cs := characters i s') in *.
  rewrite writing_app in T. change (writing (Tok t w :: ps2)) with (w ++ writing ps2)%list in T. rewrite <- !app_assoc in T.
  set (n1 := length (writing ps1)) in *.
  assert (LC : (n1 + length w <= length cs)%nat).
  { apply (f_equal (@length _)) in T. rewrite map_length, !app_length in T. unfold n1. lia. }
  assert (SP : spells t w).
  { destruct (items_in _ _ (Tok t w) I) as (qs & r & IT & IN); [apply in_or_app; right; left; reflexivity|]. exists qs, r. auto. }
  assert (W : map snd (firstn (length w) (skipn n1 cs)) = w).
  { rewrite <- firstn_map, <- skipn_map, T. unfold n1. rewrite skipn_app, skipn_all, Nat.sub_diag. cbn [skipn app].
    rewrite firstn_app, firstn_all, Nat.sub_diag. cbn. apply app_nil_r. }
  assert (U : forall a2 b2, s' = (a2 ++ b2)%list -> characters i a2 = firstn (n1 + length w) cs ->
              i + bytes a2 = byte_of cs (n1 + length w) -> cut_out (bom ++ s') (byte_of cs n1, t, byte_of cs (n1 + length w))).
  { intros a2 b2 Es C2 E2. destruct (Nat.eq_dec (length w) 0) as [Z|Z].
    - rewrite Z, Nat.add_0_r in *. exists (bom ++ a2)%list, [], b2. conj.
      + rewrite Es, <- app_assoc. reflexivity.
      + rewrite bytes_app. fold i. symmetry. exact E2.
      + rewrite app_nil_r, bytes_app. fold i. symmetry. exact E2.
      + destruct w; [exact SP|discriminate].
    - assert (L2 : (n1 < length (characters i a2))%nat) by (rewrite C2, firstn_length; lia).
      destruct (characters_cut (length a2) a2 i n1 ltac:(lia) L2) as (a1 & w' & E1 & P1 & SK & FK).
      assert (SF : skipn n1 (characters i a2) = firstn (length w) (skipn n1 cs)).
      { rewrite C2, <- firstn_skipn_comm. reflexivity. }
      exists (bom ++ a1)%list, w', b2. conj.
      + rewrite Es, E1, <- !app_assoc. reflexivity.
      + rewrite bytes_app. fold i. rewrite <- P1, SF. rewrite byte_of_pos by lia.
        destruct (skipn n1 cs) as [|[p c] l] eqn:SN.
        * apply (f_equal (@length _)) in SN. rewrite skipn_length in SN. cbn in SN. lia.
        * destruct (length w); [congruence|reflexivity].
      + rewrite <- app_assoc, bytes_app, <- E1. fold i. symmetry. exact E2.
      + rewrite (characters_shift (length w') w' 0 (i + bytes a1)) by lia. rewrite <- SK, SF, W. exact SP. }
  destruct (Nat.eq_dec (n1 + length w) (length cs)) as [EQ|NE].
  - assert (NS : s' <> []).
    { intros ->. cbn in LC.
      pose proof (items_size _ _ I) as [_ SZ]. specialize (SZ ltac:(destruct ps1; discriminate)).
      rewrite writing_app in SZ. change (writing (Tok t w :: ps2)) with (w ++ writing ps2)%list in SZ.
      apply (f_equal (@length _)) in T. rewrite map_length, !app_length in T. rewrite !app_length in SZ. cbn in T. lia. }
    assert (EE : byte_of cs (n1 + length w) = end_of cs).
    { rewrite byte_of_pos by lia. rewrite EQ, skipn_all. reflexivity. }
    destruct (characters_end (length s') s' i ltac:(lia) NS) as [(u & c & Es & G & E)|(a & b & Es & CE & E)]; fold cs in E.
    + right. exists (bom ++ u)%list, c. conj; [rewrite Es, app_assoc; reflexivity|exact G|].
      rewrite EE, E, bytes_app. reflexivity.
    + left. apply (U a b Es); [|rewrite EE; exact E]. rewrite CE. fold cs. rewrite EQ, firstn_all. reflexivity.
  - left. destruct (characters_cut (length s') s' i (n1 + length w) ltac:(lia) ltac:(fold cs; lia)) as (a & b & Es & P & SK & FK).
    apply (U a b Es); [symmetry; exact FK|]. rewrite <- P. fold cs. rewrite byte_of_pos by lia.
    destruct (skipn (n1 + length w) cs) as [|[p c] l] eqn:SN; [|reflexivity].
    apply (f_equal (@length _)) in SN. rewrite skipn_length in SN. cbn in SN. lia.
Qed.

(** ** Minus signs *)
Lemma negative_number t w rest : a_number t w rest -> negative t -> exists d r, w = 45 :: d :: r /\ a_digit d.
Proof.
  intros (radix & NU & _) NG.
  assert (D : forall s : text, followed a_digit s -> exists d r, s = d :: r /\ a_digit d).
  { intros [|d r]; cbn; [intros []|eauto]. }
  assert (ND : ~ a_digit 45) by (unfold a_digit, between; lia).
  destruct NU as [m sg s v rest SG (_ & F) _ _|m sg radix letter prefix s v rest SG RL _ _ _
                 |m sg s v f w0 rest SG (_ & F) _ _|m sg s v f w0 n sg' e x rest SG (_ & F) _ _ _ _];
    try (apply D in F as (d & r & -> & F)); destruct SG; cbn in NG; subst; try contradiction; try (eexists; eexists; split; [reflexivity|exact F]).
  - destruct RL; discriminate NG.
  - exists 48, (letter :: s). split; [reflexivity|]. unfold a_digit, between. lia.
Qed.

Lemma starts_negative ps rest : items ps rest -> forall t w ps2, ps = Tok t w :: ps2 -> negative t ->
  negative_ahead (writing ps ++ rest).
Proof.
  intros I t w ps2 E NG. destruct I as [|ps qs rest I IS]; [discriminate|].
  destruct I; cbn [app] in E; try discriminate E; try (injection E as <- <- _; try contradiction).
  - destruct H; contradiction.
  - destruct H; contradiction.
  - destruct (negative_number _ _ _ H NG) as (d & r & -> & D). exists d. eexists. split; [reflexivity|exact D].
  - destruct (negative_number _ _ _ H NG) as (d & r & -> & D). exists d. eexists. split; [reflexivity|exact D].
  - destruct H; cbn [app] in E; injection E as <- <- _; contradiction.
Qed.

Lemma item_pairs ps rest : item ps rest -> forall ps1 t1 w1 t2 w2 ps2,
  ps = (ps1 ++ Tok t1 w1 :: Tok t2 w2 :: ps2)%list -> operand t1 -> negative t2 -> False.
Proof.
  assert (Z : forall (a b : piece) ps1 t1 w1 t2 w2 ps2, [a; b] = (ps1 ++ Tok t1 w1 :: Tok t2 w2 :: ps2)%list ->
              a = Tok t1 w1 /\ b = Tok t2 w2).
  { intros a b [|x [|y [|z ps1]]] t1 w1 t2 w2 ps2 E; cbn in E; injection E; intros; subst; auto; try discriminate. }
  assert (Y : forall (a : piece) ps1 t1 w1 t2 w2 ps2, [a] <> (ps1 ++ Tok t1 w1 :: Tok t2 w2 :: ps2)%list).
  { intros a [|x [|y ps1]] t1 w1 t2 w2 ps2 E; discriminate. }
  destruct 1; intros ps1 t1 w1 t2 w2 ps2 E O NG; try (apply Y in E; contradiction);
    try (apply Z in E as [E1 E2]; injection E1; injection E2; intros; subst; contradiction).
  - destruct H; try (apply Y in E; contradiction); try (apply Z in E as [E1 E2]; injection E1; injection E2; intros; subst; contradiction).
    + destruct ps1 as [|x [|y ps1]]; cbn in E; injection E; intros; subst; try contradiction. destruct ps1 as [|z ps1]; [discriminate|]. destruct ps1; discriminate.
    + destruct ps1 as [|x [|y ps1]]; cbn in E; injection E; intros; subst; try contradiction. destruct ps1 as [|z ps1]; [discriminate|]. destruct ps1; discriminate.
  - apply Z in E as [E1 E2]. discriminate.
  - apply Z in E as [E1 E2]. discriminate.
  - apply Z in E as [E1 E2]. discriminate.
Qed.

Lemma item_last ps rest : item ps rest -> forall ps1 t1 w1, ps = (ps1 ++ [Tok t1 w1])%list -> operand t1 ->
  ~ negative_ahead rest \/ ps1 = [Tok (Symbol Dot) (str ".")].
Proof.
  assert (Z : forall (a b : piece) ps1 t1 w1, [a; b] = (ps1 ++ [Tok t1 w1])%list -> ps1 = [a] /\ b = Tok t1 w1).
  { intros a b ps1 t1 w1 E. change [a; b] with ([a] ++ [b])%list in E. apply app_inj_tail in E as [-> ->]. auto. }
  assert (Y : forall (a : piece) ps1 t1 w1, [a] = (ps1 ++ [Tok t1 w1])%list -> a = Tok t1 w1).
  { intros a ps1 t1 w1 E. change [a] with ([] ++ [a])%list in E. apply app_inj_tail in E as [_ ->]. auto. }
  destruct 1; intros ps1 t1 w1 E O;
    try (apply Y in E; try discriminate E; injection E; intros; subst; try contradiction; auto; fail);
    try (apply Z in E as [-> E]; try discriminate E; injection E; intros; subst; try contradiction; auto; fail).
  exfalso. assert (Q : exists s, t1 = Symbol s).
  { destruct H; [apply Y in E; injection E as <- _; eauto|apply Y in E; injection E as <- _; eauto|apply Z in E as [_ E]; injection E as <- _; eauto| | ].
    - change [Tok (Symbol EqualEqual) (str "=="); Tok (Symbol EqualEqual) (str "=="); Tok (Symbol Equal) (str "=")]
        with ([Tok (Symbol EqualEqual) (str "=="); Tok (Symbol EqualEqual) (str "==")] ++ [Tok (Symbol Equal) (str "=")])%list in E.
      apply app_inj_tail in E as [_ E]. injection E as <- _. eauto.
    - change [Tok (Symbol EqualEqual) (str "=="); Tok (Symbol EqualEqual) (str "=="); Tok (Symbol EqualEqual) (str "==")]
        with ([Tok (Symbol EqualEqual) (str "=="); Tok (Symbol EqualEqual) (str "==")] ++ [Tok (Symbol EqualEqual) (str "==")])%list in E.
      apply app_inj_tail in E as [_ E]. injection E as <- _. eauto. }
  destruct Q as (s & ->). contradiction.
Qed.

Lemma items_minus ps rest : items ps rest -> forall ps1 t1 w1 t2 w2 ps2,
  ps = (ps1 ++ Tok t1 w1 :: Tok t2 w2 :: ps2)%list -> operand t1 -> negative t2 ->
  exists ps0, ps1 = (ps0 ++ [Tok (Symbol Dot) (str ".")])%list.
Proof.
  induction 1 as [|p qs rest I IS IH]; intros ps1 t1 w1 t2 w2 ps2 E O NG; [destruct ps1; discriminate|].
  destruct (app_cases _ _ _ _ E) as [(u & E1 & E2)|(u & E1 & NU & E2)].
  - (* ps1 = p ++ u *)
    destruct (IH u t1 w1 t2 w2 ps2 E2 O NG) as (u0 & ->). exists (p ++ u0)%list. rewrite E1, app_assoc. reflexivity.
  - destruct u as [|a u]; [congruence|]. cbn [app] in E2. injection E2 as <- E2.
    destruct u as [|b u].
    + cbn [app] in E2.
      destruct (item_last _ _ I ps1 t1 w1 E1 O) as [N| ->]; [|exists []; reflexivity].
      exfalso. apply N. eapply starts_negative; [exact IS|symmetry; exact E2|exact NG].
    + cbn [app] in E2. injection E2 as <- E2. exfalso. eapply (item_pairs _ _ I); [exact E1|exact O|exact NG].
Qed.

Definition full (p : piece) : Prop := match p with Gap w => (1 <= length w)%nat | Tok _ _ => True end.
Lemma items_full ps rest : items ps rest -> Forall full ps.
Proof.
  induction 1 as [|ps qs rest I IS IH]; [constructor|]. apply Forall_app. split; [|exact IH].
  destruct I; repeat first [apply Forall_cons | apply Forall_nil]; cbn; try lia; try exact Logic.I.
  destruct H; repeat first [apply Forall_cons | apply Forall_nil]; exact Logic.I.
Qed.

Lemma spans_first cs ps : placed cs (end_of cs) -> forall k a t b B, Forall full ps -> (k + length (writing ps) <= length cs)%nat ->
  spans cs k ps = (a, t, b) :: B -> a = byte_of cs k -> exists w ps2, ps = Tok t w :: ps2.
Proof.
  intros PL k a t b B F L E EA. destruct ps as [|[w|t' w] ps]; cbn [spans] in E; [discriminate| |].
  - exfalso. inversion F as [|x y F1 F2]; subst. cbn in F1.
    unfold writing in L. cbn [flat_map written] in L. rewrite app_length in L. fold (writing ps) in L.
    assert (IN : In (byte_of cs k, t, b) (spans cs (k + length w) ps)) by (rewrite E; left; reflexivity).
    apply spans_in in IN as (ps1 & w1 & ps2 & -> & Q & _). rewrite writing_app, app_length in L.
    pose proof (byte_of_lt cs PL (k + length w + length (writing ps1)) k ltac:(lia) ltac:(lia)). lia.
  - injection E as _ <- _ _. eauto.
Qed.

Lemma spans_split cs ps : forall k A a t b B, spans cs k ps = (A ++ (a, t, b) :: B)%list ->
  exists ps1 w ps2, ps = (ps1 ++ Tok t w :: ps2)%list /\ A = spans cs k ps1
    /\ a = byte_of cs (k + length (writing ps1)) /\ b = byte_of cs (k + length (writing ps1) + length w)
    /\ B = spans cs (k + length (writing ps1) + length w) ps2.
Proof.
  induction ps as [|[w|t' w] ps IH]; intros k A a t b B E; cbn [spans] in E; [destruct A; discriminate| |].
  - destruct (IH _ _ _ _ _ _ E) as (ps1 & u & ps2 & -> & -> & -> & -> & ->). exists (Gap w :: ps1), u, ps2.
    unfold writing. cbn [flat_map written]. rewrite app_length, !Nat.add_assoc. auto.
  - destruct A as [|x A]; cbn [app] in E.
    + injection E as <- <- <- <-. exists [], w, ps. unfold writing. cbn. rewrite Nat.add_0_r. auto.
    + injection E as <- E. destruct (IH _ _ _ _ _ _ E) as (ps1 & u & ps2 & -> & -> & -> & -> & ->). exists (Tok t' w :: ps1), u, ps2.
      unfold writing. cbn [flat_map written]. rewrite app_length, !Nat.add_assoc. auto.
Qed.

Lemma minus_signs s A a t1 b t2 c B : fst (lex s) = (A ++ (a, t1, b) :: (b, t2, c) :: B)%list ->
  operand t1 -> negative t2 -> exists A' d, A = (A' ++ [(d, Symbol Dot, a)])%list.
Proof.
  intros E O NG. destruct (lex_spec s) as (ps & rest & T & I & F & _). destruct (start_sees s) as (_ & _ & PL).
  rewrite F in E. clear F. pose proof (items_full _ _ I) as FU.
  unfold source_text in T. set (cs := source_characters s) in *.
  assert (LC : (length cs = length (writing ps) + length rest)%nat) by (rewrite <- (map_length snd cs), T, app_length; reflexivity).
  apply spans_split in E as (ps1 & w1 & ps2 & -> & -> & -> & Eb & EB). cbn [Nat.add] in *.
  rewrite writing_app, app_length in LC. change (writing (Tok t1 w1 :: ps2)) with (w1 ++ writing ps2)%list in LC. rewrite app_length in LC.
  apply Forall_app in FU as [_ FU]. inversion FU as [|x y _ FU']; subst.
  destruct (spans_first cs ps2 PL (length (writing ps1) + length w1) _ _ _ _ FU' ltac:(lia) (eq_sym EB) eq_refl) as (w2 & ps3 & ->).
  destruct (items_minus _ _ I ps1 t1 w1 t2 w2 ps3 eq_refl O NG) as (ps0 & ->).
  rewrite spans_app. cbn [spans Nat.add]. do 2 eexists. f_equal. f_equal. f_equal.
  rewrite writing_app, app_length. reflexivity.
Qed.
