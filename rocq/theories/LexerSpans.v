(** Where the tokens are. *)
From Coq Require Import String NArith ZArith Bool List Lia ZifyBool ZifyNat ZifyN.
From Verif Require Import Text TextProofs Strings StringsSpec SrcSpan Lexer LexerSpec LexerProofs LexerSymbols LexerWhole.
Import ListNotations.
Open Scope N_scope.

Notation bytes s := (N.of_nat (byte_length s)).
Lemma bytes_app a b : bytes (a ++ b)%list = bytes a + bytes b.
Proof. unfold byte_length. rewrite map_app, list_sum_app. lia. Qed.
Lemma bytes_cons c b : bytes (c :: b) = N.of_nat (len_utf8 c) + bytes b.
Proof. unfold byte_length. cbn [map list_sum fold_right]. unfold list_sum. cbn. lia. Qed.

Lemma no_bytes i : i + bytes (@nil N) = i.
Proof. apply N.add_0_r. Qed.
Ltac by_bytes :=
  rewrite ?bytes_cons; change (len_utf8 13) with 1%nat; change (len_utf8 10) with 1%nat; rewrite ?no_bytes; lia.

(** ** Bytes of characters *)
Lemma byte_of_next cs k : placed cs (end_of cs) -> (k < length cs)%nat -> byte_of cs k < byte_of cs (S k).
Proof.
  intros PL L. rewrite !byte_of_pos by lia.
  apply (placed_skipn k) in PL. replace (S k) with (k + 1)%nat by lia. rewrite <- skipn_skipn.
  destruct (skipn k cs) as [|[p c] l] eqn:E.
  - apply (f_equal (@length _)) in E. rewrite skipn_length in E. cbn in E. lia.
  - cbn in *. tauto.
Qed.
Lemma byte_of_lt cs : placed cs (end_of cs) -> forall k j, (j < k)%nat -> (k <= length cs)%nat -> byte_of cs j < byte_of cs k.
Proof.
  intros PL k. induction k as [|k IH]; intros j LT LE; [lia|].
  pose proof (byte_of_next cs k PL ltac:(lia)). destruct (Nat.eq_dec j k) as [->|N]; [exact H|].
  specialize (IH j ltac:(lia) ltac:(lia)). lia.
Qed.
Lemma byte_of_le cs : placed cs (end_of cs) -> forall k j, (j <= k)%nat -> (k <= length cs)%nat -> byte_of cs j <= byte_of cs k.
Proof.
  intros PL k j LE L. destruct (Nat.eq_dec j k) as [->|N]; [lia|].
  pose proof (byte_of_lt cs PL k j ltac:(lia) L). lia.
Qed.

(** The characters in front of a character and from it on. *)
Definition normal (c : N) : N := if c =? 13 then 10 else c.
Lemma characters_split n : forall s i k p c', (length s <= n)%nat -> nth_error (characters i s) k = Some (p, c') ->
  exists a c b, s = (a ++ c :: b)%list /\ p = i + bytes a /\ c' = normal c
    /\ skipn k (characters i s) = characters p (c :: b).
Proof.
  induction n as [|n IH]; intros [|c s] i k p c' L E; try (destruct k; discriminate E); [cbn in L; lia|].
  destruct k as [|k].
  - exists [], c, s. cbn [app]. assert (Q : p = i /\ c' = normal c).
    { pose proof (characters_hd i (c :: s)) as HD. unfold normal. cbn in E. destruct (c =? 13).
      - destruct s as [|d s]; [injection E as <- <-; auto|]. destruct (d =? 10); injection E as <- <-; auto.
      - injection E as <- <-. auto. }
    destruct Q as [-> ->]. conj; auto. by_bytes.
  - cbn [characters] in *. cbn [length] in L. destruct (N.eqb_spec c 13) as [->|N1].
    + destruct s as [|d s]; [destruct k; discriminate E|]. destruct (N.eqb_spec d 10) as [->|N2]; cbn [nth_error skipn] in *.
      * destruct (IH s (i + 2) k p c' ltac:(cbn in L; lia) E) as (a & c & b & -> & -> & -> & SK).
        exists (13 :: 10 :: a), c, b. conj; auto. by_bytes.
      * destruct (IH (d :: s) (i + 1) k p c' ltac:(cbn in *; lia) E) as (a & c & b & E' & -> & -> & SK).
        exists (13 :: a), c, b. rewrite E' in *. conj; auto. by_bytes.
    + cbn [nth_error skipn] in *.
      destruct (IH s (i + N.of_nat (len_utf8 c)) k p c' ltac:(lia) E) as (a & d & b & -> & -> & -> & SK).
      exists (c :: a), d, b. conj; auto. by_bytes.
Qed.

(** Every character is one of them, except a newline after a carriage return. *)
Lemma characters_all n : forall a c b i, (length a <= n)%nat ->
  (exists k, nth_error (characters i (a ++ c :: b)) k = Some (i + bytes a, normal c))
  \/ (c = 10 /\ exists a' k, a = (a' ++ [13])%list
      /\ nth_error (characters i (a ++ c :: b)) k = Some (i + bytes a', 10)
      /\ skipn (S k) (characters i (a ++ c :: b)) = characters (i + bytes a' + 2) b).
Proof.
  induction n as [|n IH]; intros a c b i L.
  - destruct a; [|cbn in L; lia]. left. exists 0%nat. cbn [app characters]. unfold normal.
    rewrite no_bytes.
    destruct (c =? 13); [|reflexivity]. destruct b as [|d b]; [reflexivity|]. destruct (d =? 10); reflexivity.
  - destruct a as [|x a].
    { left. exists 0%nat. cbn [app characters]. unfold normal. 
      rewrite no_bytes.
      destruct (c =? 13); [|reflexivity]. destruct b as [|d b]; [reflexivity|]. destruct (d =? 10); reflexivity. }
    cbn [length] in L. cbn [app characters]. destruct (N.eqb_spec x 13) as [->|N1].
    + destruct a as [|y a]; cbn [app].
      * destruct (N.eqb_spec c 10) as [->|N2].
        -- right. split; auto. exists [], 0%nat. rewrite no_bytes. conj; auto.
        -- left. exists 1%nat. destruct (IH [] c b (i + 1) ltac:(cbn; lia)) as [(k & E)|(_ & a' & k & Q & _)]; [|destruct a'; discriminate].
           pose proof (characters_hd (i + 1) (c :: b)). cbn [nth_error app] in *.
           replace (i + bytes [13]) with (i + 1) by reflexivity.
           destruct (characters (i + 1) (c :: b)) as [|[p d] cs] eqn:CH; [discriminate|]. subst p.
           cbn [characters] in CH. unfold normal. destruct (c =? 13).
           ++ destruct b as [|z b]; [injection CH as <- _; reflexivity|]. destruct (z =? 10); injection CH as <- _; reflexivity.
           ++ injection CH as <- _. reflexivity.
      * destruct (N.eqb_spec y 10) as [->|N2].
        -- destruct (IH a c b (i + 2) ltac:(cbn in L; lia)) as [(k & E)|(-> & a' & k & -> & E & SK)].
           ++ left. exists (S k). cbn [nth_error]. rewrite E. f_equal. f_equal. by_bytes.
           ++ right. split; auto. exists (13 :: 10 :: a'), (S k). conj; auto.
              ** cbn [nth_error]. rewrite E. f_equal. f_equal. by_bytes.
              ** cbn [skipn] in *. rewrite SK. f_equal. by_bytes.
        -- destruct (IH (y :: a) c b (i + 1) ltac:(cbn in *; lia)) as [(k & E)|(-> & a' & k & Q & E & SK)].
           ++ left. exists (S k). cbn [nth_error]. cbn [app] in E. rewrite E. f_equal. f_equal. rewrite (bytes_cons 13). by_bytes.
           ++ right. split; auto. exists (13 :: a'), (S k). conj; [rewrite Q; reflexivity| |].
              ** cbn [nth_error]. cbn [app] in E. rewrite E. f_equal. f_equal. by_bytes.
              ** cbn [app] in SK. change (skipn (S (S k)) ((i, 10) :: characters (i + 1) (y :: a ++ 10 :: b)))
                   with (skipn (S k) (characters (i + 1) (y :: a ++ 10 :: b))). rewrite SK. f_equal. by_bytes.
    + destruct (IH a c b (i + N.of_nat (len_utf8 x)) ltac:(lia)) as [(k & E)|(-> & a' & k & -> & E & SK)].
      * left. exists (S k). cbn [nth_error]. rewrite E. f_equal. f_equal. by_bytes.
      * right. split; auto. exists (x :: a'), (S k). conj; auto.
        -- cbn [nth_error]. rewrite E. f_equal. f_equal. by_bytes.
        -- cbn [skipn] in *. rewrite SK. f_equal. by_bytes.
Qed.

(** ** Pieces *)
Lemma spans_app cs ps : forall k qs, spans cs k (ps ++ qs) = (spans cs k ps ++ spans cs (k + length (writing ps)) qs)%list.
Proof.
  induction ps as [|[w|t w] ps IH]; intros k qs; cbn [spans app].
  - unfold writing. cbn. rewrite Nat.add_0_r. reflexivity.
  - rewrite IH. unfold writing. cbn. rewrite app_length. do 2 f_equal. lia.
  - rewrite IH. unfold writing. cbn. rewrite app_length. do 3 f_equal. lia.
Qed.

(** Only comments may be empty. *)
Definition visible (p : piece) : Prop :=
  match p with Tok t w => slashes t = 0 -> (1 <= length w)%nat | Gap _ => True end.
Lemma item_visible ps rest : item ps rest -> Forall visible ps.
Proof.
  destruct 1; repeat first [apply Forall_cons | apply Forall_nil]; cbn; intros; try lia; try discriminate.
  - apply word_nonempty in H. lia.
  - apply word_nonempty in H. lia.
  - apply a_number_nonempty in H. lia.
  - apply a_number_nonempty in H. lia.
  - destruct s; cbn; lia.
  - destruct H; repeat first [apply Forall_cons | apply Forall_nil]; cbn; lia.
  - destruct H as (_ & D). destruct s; [contradiction|]. cbn. lia.
Qed.
Lemma items_visible ps rest : items ps rest -> Forall visible ps.
Proof. induction 1; [constructor|]. apply Forall_app. split; [eapply item_visible; eassumption|assumption]. Qed.

Lemma spans_in_order cs : placed cs (end_of cs) -> forall ps k,
  Forall visible ps -> (k + length (writing ps) <= length cs)%nat ->
  in_order (byte_of cs k) (byte_of cs (k + length (writing ps))) (spans cs k ps).
Proof.
  intros PL. 
  assert (W : forall low low' high ts, low <= low' -> in_order low' high ts -> in_order low high ts).
  { intros low low' high [|[[a t] b] ts] LE; cbn; [lia|]. intros (? & ? & ? & ?). conj; auto. lia. }
  induction ps as [|[w|t w] ps IH]; intros k F L; cbn [spans in_order].
  - unfold writing. cbn. rewrite Nat.add_0_r. lia.
  - inversion F as [|x y V F']; subst. unfold writing in *. cbn [flat_map written] in *. rewrite app_length in *. fold (writing ps) in *.
    rewrite Nat.add_assoc. eapply W; [|apply IH; auto; lia]. apply byte_of_le; auto; lia.
  - inversion F as [|x y V F']; subst. unfold writing in *. cbn [flat_map written] in *. rewrite app_length in *. fold (writing ps) in *.
    conj.
    + lia.
    + apply byte_of_le; auto; lia.
    + intros Z. apply V in Z. apply byte_of_lt; auto; lia.
    + rewrite Nat.add_assoc. apply IH; auto. lia.
Qed.

(** ** What is at a place of the pieces *)
Inductive placed_in (ps : list piece) (k : nat) : Prop :=
| in_token ps1 t w ps2 : ps = (ps1 ++ Tok t w :: ps2)%list ->
    (length (writing ps1) <= k < length (writing ps1) + length w)%nat -> placed_in ps k
| in_blank ps1 c ps2 : ps = (ps1 ++ Gap [c] :: ps2)%list -> blank c -> (k = length (writing ps1))%nat -> placed_in ps k
| in_slashes ps1 w t u ps2 : ps = (ps1 ++ Gap w :: Tok t u :: ps2)%list ->
    (length (writing ps1) <= k < length (writing ps1) + length w)%nat ->
    w = repeat 47 (N.to_nat (slashes t)) -> placed_in ps k.

Lemma placed_in_app ps qs k : placed_in qs k -> placed_in (ps ++ qs) (length (writing ps) + k).
Proof.
  intros [ps1 t w ps2 -> B|ps1 c ps2 -> B ->|ps1 w t u ps2 -> B W].
  - eapply (in_token _ _ (ps ++ ps1) t w ps2); [rewrite <- app_assoc; reflexivity|]. rewrite writing_app, app_length. lia.
  - eapply (in_blank _ _ (ps ++ ps1) c ps2); [rewrite <- app_assoc; reflexivity|exact B|]. rewrite writing_app, app_length. lia.
  - eapply (in_slashes _ _ (ps ++ ps1) w t u ps2); [rewrite <- app_assoc; reflexivity| |exact W]. rewrite writing_app, app_length. lia.
Qed.
Lemma placed_in_before ps qs k : placed_in ps k -> placed_in (ps ++ qs) k.
Proof.
  intros [ps1 t w ps2 -> B|ps1 c ps2 -> B ->|ps1 w t u ps2 -> B W].
  - eapply in_token; [rewrite <- app_assoc; reflexivity|exact B].
  - eapply in_blank; [rewrite <- app_assoc; reflexivity|exact B|reflexivity].
  - eapply in_slashes; [rewrite <- app_assoc; reflexivity|exact B|exact W].
Qed.
Lemma placed_in_tokens : forall ps k, Forall (fun p => is_token p = true) ps -> (k < length (writing ps))%nat -> placed_in ps k.
Proof.
  induction ps as [|[w|t w] ps IH]; intros k F L; inversion F as [|x y F1 F2]; subst; try discriminate; [cbn in L; lia|].
  unfold writing in L. cbn [flat_map written] in L. rewrite app_length in L. fold (writing ps) in L.
  destruct (Nat.lt_ge_cases k (length w)) as [LT|GE].
  - apply (in_token _ _ [] t w ps); [reflexivity|]. cbn. lia.
  - pose proof (placed_in_app [Tok t w] ps (k - length w)) as Q. unfold writing in Q. cbn [flat_map written app] in Q.
    rewrite app_nil_r in Q. fold (writing ps) in Q. replace (length w + (k - length w))%nat with k in Q by lia.
    apply Q, IH; auto. lia.
Qed.
Lemma item_placed_in ps rest k : item ps rest -> (k < length (writing ps))%nat -> placed_in ps k.
Proof.
  intros I L.
  assert (Q : Forall (fun p => is_token p = true) ps \/ (exists c, ps = [Gap [c]] /\ blank c)
              \/ (exists w t u, ps = [Gap w; Tok t u] /\ w = repeat 47 (N.to_nat (slashes t)))).
  { destruct I; try (left; repeat constructor; fail).
    - right. left. eauto.
    - left. destruct H; repeat constructor.
    - right. right. do 3 eexists. split; reflexivity.
    - right. right. do 3 eexists. split; reflexivity.
    - right. right. do 3 eexists. split; reflexivity. }
  destruct Q as [F|[(c & -> & B)|(w & t & u & -> & W)]].
  - apply placed_in_tokens; auto.
  - cbn in L. apply (in_blank _ _ [] c []); auto. cbn. lia.
  - unfold writing in L. cbn [flat_map written] in L. rewrite app_nil_r, app_length in L.
    destruct (Nat.lt_ge_cases k (length w)) as [LT|GE].
    + apply (in_slashes _ _ [] w t u []); auto. cbn. lia.
    + apply (in_token _ _ [Gap w] t u []); auto. unfold writing. cbn [flat_map written]. rewrite app_nil_r. lia.
Qed.
Lemma items_placed_in ps rest : items ps rest -> forall k, (k < length (writing ps))%nat -> placed_in ps k.
Proof.
  induction 1 as [|ps qs rest I IS IH]; intros k L; [cbn in L; lia|].
  rewrite writing_app, app_length in L.
  destruct (Nat.lt_ge_cases k (length (writing ps))) as [LT|GE].
  - apply placed_in_before. eapply item_placed_in; eassumption.
  - replace k with (length (writing ps) + (k - length (writing ps)))%nat by lia. apply placed_in_app, IH. lia.
Qed.

Lemma at_place cs ps rest k : placed cs (end_of cs) -> map snd cs = (writing ps ++ rest)%list -> items ps rest ->
  (k < length (writing ps))%nat ->
  (exists start t end_ j, In (start, t, end_) (spans cs 0 ps) /\ start <= byte_of cs k /\ end_ = byte_of cs j
     /\ (k < j <= length cs)%nat)
  \/ (exists c, nth_error cs k = Some (byte_of cs k, c) /\ blank c)
  \/ (nth_error cs k = Some (byte_of cs k, 47)
      /\ exists start t end_, In (start, t, end_) (spans cs 0 ps) /\ byte_of cs k < start /\ start <= byte_of cs k + slashes t).
Proof.
  intros PL E I L.
  assert (LC : (length cs = length (writing ps) + length rest)%nat) by (rewrite <- (map_length snd cs), E, app_length; reflexivity).
  assert (NT : forall m c, nth_error (writing ps) m = Some c -> nth_error cs m = Some (byte_of cs m, c)).
  { intros m c H. assert (M : nth_error (map snd cs) m = Some c).
    { rewrite E, nth_error_app1; [exact H|]. apply nth_error_Some. congruence. }
    rewrite nth_error_map in M. unfold byte_of. destruct (nth_error cs m) as [[i d]|]; cbn in *; [|discriminate].
    injection M as ->. reflexivity. }
  destruct (items_placed_in _ _ I k L) as [ps1 t w ps2 -> B|ps1 c ps2 -> B ->|ps1 w t u ps2 -> B W].
  - left. exists (byte_of cs (length (writing ps1))), t, (byte_of cs (length (writing ps1) + length w)), (length (writing ps1) + length w)%nat.
    rewrite writing_app, app_length in LC. unfold writing in LC at 2. cbn [flat_map written] in LC. rewrite app_length in LC.
    conj; auto; try lia.
    + rewrite spans_app. apply in_or_app. right. left. reflexivity.
    + apply byte_of_le; auto; lia.
  - right. left. exists c. split; [|exact B]. apply NT. rewrite writing_app, nth_error_app2 by lia. rewrite Nat.sub_diag. reflexivity.
  - right. right. 
    rewrite writing_app, app_length in LC. unfold writing in LC at 2. cbn [flat_map written] in LC. rewrite !app_length in LC.
    assert (SL : forall m, (length (writing ps1) <= m < length (writing ps1) + length w)%nat -> nth_error cs m = Some (byte_of cs m, 47)).
    { intros m BM. apply NT. rewrite writing_app, nth_error_app2 by lia. unfold writing at 1. cbn [flat_map written].
      rewrite nth_error_app1 by lia. rewrite W. apply nth_error_repeat.
      rewrite W, repeat_length in BM. lia. }
    split; [apply SL; exact B|].
    exists (byte_of cs (length (writing ps1) + length w)), t, (byte_of cs (length (writing ps1) + length w + length u)).
    conj.
    + rewrite spans_app. apply in_or_app. right. cbn [spans]. left. reflexivity.
    + apply byte_of_lt; auto; lia.
    + assert (ST : forall d m, (length (writing ps1) <= m)%nat -> (m + d <= length (writing ps1) + length w)%nat -> byte_of cs (m + d) = byte_of cs m + N.of_nat d).
      { induction d as [|d IHd]; intros m LM LD; [rewrite Nat.add_0_r; lia|].
        specialize (IHd m LM ltac:(lia)). specialize (SL (m + d)%nat ltac:(lia)).
        apply (placed_skipn (m + d)) in PL. rewrite <- Nat.add_succ_comm. cbn [Nat.add].
        rewrite (byte_of_pos cs (S (m + d))) by lia. replace (S (m + d)) with (m + d + 1)%nat by lia. rewrite <- skipn_skipn.
        apply nth_error_split in SL as (a & b & Ecs & LA). rewrite Ecs in PL at 1. rewrite <- LA in PL at 1.
        rewrite skipn_app, skipn_all, Nat.sub_diag in PL. cbn [app skipn placed] in PL. destruct PL as (P1 & _).
        specialize (P1 ltac:(lia) ltac:(lia)).
        rewrite Ecs at 1. rewrite <- LA at 1. rewrite skipn_app, skipn_all, Nat.sub_diag. cbn [app skipn]. lia. }
      specialize (ST (length (writing ps1) + length w - k)%nat k ltac:(lia) ltac:(lia)).
      replace (k + (length (writing ps1) + length w - k))%nat with (length (writing ps1) + length w)%nat in ST by lia.
      rewrite ST. rewrite W, repeat_length in *. lia.
Qed.

(** ** The source *)
Lemma source_parts s : exists bom s', s = (bom ++ s')%list /\ source_characters s = characters (bytes bom) s'
  /\ (bom = [] \/ bom = [0xFEFF]).
Proof.
  destruct s as [|c s]; [exists [], []; auto|]. unfold source_characters.
  destruct (N.eqb_spec c 0xFEFF) as [->|N].
  - exists [0xFEFF], s. auto.
  - exists [], (c :: s). auto.
Qed.

Lemma byte_of_inside s k : source_characters s <> [] -> (k <= length (source_characters s))%nat ->
  byte_of (source_characters s) k <= bytes s.
Proof.
  intros NE L. destruct (source_parts s) as (bom & s' & -> & E & _).
  assert (K : forall k p c, nth_error (source_characters (bom ++ s')) k = Some (p, c) -> p + 1 <= bytes (bom ++ s')%list).
  { intros m p c H. rewrite E in H. apply (characters_split (length s')) in H as (a & d & b & -> & -> & _ & _); [|lia].
    rewrite !bytes_app, bytes_cons. pose proof (len_utf8_bounds d). lia. }
  unfold byte_of. destruct (nth_error (source_characters (bom ++ s')) k) as [[i c]|] eqn:H; [apply K in H; lia|].
  destruct (exists_last NE) as (l & [p c] & EL).
  assert (H' : nth_error (source_characters (bom ++ s')) (length l) = Some (p, c)).
  { rewrite EL, nth_error_app2, Nat.sub_diag by lia. reflexivity. }
  apply K in H'. rewrite EL, last_last. cbn. exact H'.
Qed.

Lemma bad_nonempty kind before marked s : bad kind before marked s -> s <> [].
Proof.
  destruct 1; try discriminate.
  - intros E. apply app_eq_nil in E as [-> _]. cbn in H. repeat destruct H as [H|H]; try discriminate; contradiction.
  - subst. discriminate.
  - intros E. apply app_eq_nil in E as [-> _].
    assert (T : exists t', number radix t' [] r) by eauto. destruct T as (t' & T).
    assert (Q : forall t w r, number radix t w r -> w <> []).
    { clear. intros t w r NU. destruct NU as [m sg s v rest _ (_ & D) _ _|m sg radix letter prefix s v rest _ _ _ _ _
                 |m sg s v f w0 rest _ (_ & D) _ _|m sg s v f w0 n sg' e x rest _ (_ & D) _ _ _ _];
      intros E; apply app_eq_nil in E as [_ E]; try discriminate; destruct s; try contradiction; discriminate. }
    exact (Q _ _ _ T eq_refl).
  - intros E. apply app_eq_nil in E as [_ E]. discriminate.
  - intros E. apply app_eq_nil in E as [_ E]. discriminate.
  - intros E. apply app_eq_nil in E as [_ E]. apply app_eq_nil in E as [_ E]. discriminate.
Qed.
Lemma bad_hex_marked before marked s : bad (InvalidUnicodeEscape ExpectedHexDigitOrCloseBrace) before marked s ->
  length marked = 1%nat.
Proof. inversion 1; reflexivity. Qed.

Lemma in_order_weaken ts : forall low low' high high', low <= low' -> high' <= high -> in_order low' high' ts -> in_order low high ts.
Proof.
  induction ts as [|[[a t] b] ts IH]; intros low low' high high' L H; cbn; [lia|].
  intros (A & B & C & D). conj; auto; [lia|]. eapply IH; [|exact H|exact D]. lia.
Qed.

Lemma tokens_placed s : exists limit,
  read_up_to s (snd (lex s)) limit
  /\ in_order 0 limit (fst (lex s))
  /\ forall i c, stands_at s i c -> i < limit -> covered (fst (lex s)) i \/ between_tokens s (fst (lex s)) i c.
Proof.
  destruct (lex_spec s) as (ps & rest & T & I & F & O).
  destruct (start_sees s) as (_ & _ & PL).
  set (cs := source_characters s) in *. set (n := length (writing ps)) in *.
  assert (LC : (length cs = n + length rest)%nat).
  { unfold source_text in T. fold cs in T. rewrite <- (map_length snd cs), T, app_length. reflexivity. }
  pose proof (items_visible _ _ I) as V.
  pose proof (spans_in_order cs PL ps 0 V ltac:(cbn; fold n; lia)) as IO. cbn [Nat.add] in IO. fold n in IO.
  assert (INS : cs <> [] -> forall k, (k <= length cs)%nat -> byte_of cs k <= bytes s) by (intros NE k L; apply byte_of_inside; auto).
  assert (EMP : cs = [] -> ps = []).
  { intros E. rewrite E in LC. cbn in LC. destruct ps as [|p ps]; auto.
    pose proof (proj2 (items_size _ _ I) ltac:(discriminate)) as SZ. unfold n in LC. lia. }
  (* the characters *)
  assert (CH : forall limit, (forall k, (k < length cs)%nat -> byte_of cs k < limit -> (k < n)%nat) ->
     forall i c, stands_at s i c -> i < limit -> covered (fst (lex s)) i \/ between_tokens s (fst (lex s)) i c).
  { intros limit LIM i c (a & b & ES & Ei) Li.
    destruct (source_parts s) as (bom & s' & Es & Ecs & BOM). fold cs in Ecs.
    assert (Q : (a = [] /\ c = 0xFEFF) \/ exists a', a = (bom ++ a')%list /\ s' = (a' ++ c :: b)%list).
    { destruct BOM as [->| ->]; cbn [app] in *.
      - right. exists a. split; auto. congruence.
      - destruct a as [|d a]; cbn [app] in *; [left; split; auto; congruence|].
        right. exists a. split; congruence. }
    destruct Q as [(-> & ->)|(a' & -> & ->)].
    { right. right. left. split; auto. }
    rewrite bytes_app in Ei.
    destruct (characters_all (length a') a' c b (bytes bom) (le_n _)) as [(k & E)|(-> & a'' & k & -> & E & SK)]; rewrite <- Ecs in *.
    - assert (Bk : byte_of cs k = i) by (unfold byte_of; rewrite E; congruence).
      assert (KL : (k < length cs)%nat) by (apply nth_error_Some; congruence).
      assert (KN : (k < n)%nat) by (apply LIM; auto; lia).
      destruct (at_place cs ps rest k PL T I KN) as [(st & t & en & j & IN & LE & -> & LJ)|[(d & E' & B)|(E' & st & t & en & IN & L1 & L2)]].
      + left. exists st, t, (byte_of cs j). rewrite F. conj; auto; [lia|]. pose proof (byte_of_lt cs PL j k ltac:(lia) ltac:(lia)). lia.
      + right. left. rewrite E in E'. injection E' as _ E'. unfold normal in E'. destruct (N.eqb_spec c 13); subst d; [|exact B].
        unfold blank in B. lia.
      + right. right. right. right. rewrite E in E'. injection E' as _ E'. unfold normal in E'.
        destruct (N.eqb_spec c 13); [discriminate|]. split; [exact E'|]. exists st, t, en. rewrite F. rewrite Bk in *. auto.
    - rewrite bytes_app in Ei. change (bytes [13]) with 1 in Ei.
      assert (Bk : byte_of cs k = bytes bom + bytes a'') by (unfold byte_of; rewrite E; congruence).
      assert (KL : (k < length cs)%nat) by (apply nth_error_Some; congruence).
      assert (KN : (k < n)%nat) by (apply LIM; auto; lia).
      destruct (at_place cs ps rest k PL T I KN) as [(st & t & en & j & IN & LE & -> & LJ)|[(d & E' & B)|(E' & st & t & en & IN & L1 & L2)]].
      + destruct b as [|d b].
        * right. right. right. left. exists (bom ++ a'')%list. conj; auto.
          -- rewrite ES, <- !app_assoc. reflexivity.
          -- rewrite bytes_app. lia.
        * left. exists st, t, (byte_of cs j). rewrite F. conj; auto; [lia|].
          pose proof (byte_of_le cs PL j (S k) ltac:(lia) ltac:(lia)) as MJ.
          assert (SL : (S k <= length cs)%nat) by lia.
          rewrite (byte_of_pos cs (S k)) in MJ by lia. rewrite SK in MJ.
          pose proof (characters_hd (bytes bom + bytes a'' + 2) (d :: b)) as HD.
          destruct (characters (bytes bom + bytes a'' + 2) (d :: b)) as [|[q y] l]; [discriminate|]. cbn [pos] in MJ. lia.
      + rewrite E in E'. injection E' as _ <-. unfold blank in B. lia.
      + rewrite E in E'. discriminate. }
  destruct O as [(Eo & ->)|(r & before & marked & Eo & B & L)]; rewrite Eo.
  - exists (bytes s). split; [reflexivity|]. split.
    + rewrite F. assert (Q : cs = [] \/ cs <> []) by (destruct cs; [left; auto|right; discriminate]).
      destruct Q as [Q|Q]; [rewrite (EMP Q); cbn; lia|].
      eapply in_order_weaken; [| |exact IO]; [lia|]. apply INS; [exact Q|lia].
    + apply CH. cbn in LC. intros k KL _. lia.
  - pose proof (bad_nonempty _ _ _ _ B) as NR. pose proof (bad_length _ _ _ _ B) as BL.
    assert (LR : (1 <= length rest)%nat) by (destruct rest; [congruence|cbn; lia]).
    assert (NC : cs <> []) by (intros Q; rewrite Q in LC; cbn in LC; lia).
    exists (byte_of cs n). split; [|split].
    + cbn [read_up_to]. unfold located in L. fold n in L. injection L as L1 L2.
      destruct (nth_error cs n) as [[p d]|] eqn:NT; [|apply nth_error_None in NT; lia].
      assert (BN : byte_of cs n = p) by (unfold byte_of; rewrite NT; reflexivity).
      destruct (source_parts s) as (bom & s' & Es & Ecs & _). fold cs in Ecs. pose proof NT as NT'. rewrite Ecs in NT'.
      apply (characters_split (length s')) in NT' as (a & c & b & -> & Ep & _ & SK); [|lia].
      assert (ER : error_start r <= error_end r /\ error_end r <= bytes s).
      { rewrite L1, L2.
        assert (G : byte_of cs (n + length before) <= byte_of cs (n + length before + length marked)
                    /\ byte_of cs (n + length before + length marked) <= bytes s).
        { split; [apply byte_of_le; auto; lia|apply INS; auto; lia]. }
        destruct (error_kind r) as [| | | | | | | |u| | |] eqn:EK; try exact G.
        destruct u; try exact G. split; [lia|].
        apply bad_hex_marked in B. pose proof (byte_of_lt cs PL (n + length before + length marked) (n + length before) ltac:(lia) ltac:(lia)). lia. }
      conj; try tauto.
      * rewrite L1. apply byte_of_le; auto; lia.
      * exists (bom ++ a)%list, (c :: b), before, marked. conj.
        -- rewrite Es, <- app_assoc. reflexivity.
        -- rewrite bytes_app. lia.
        -- rewrite BN, <- SK. rewrite <- Ecs.
           replace (map snd (skipn n cs)) with rest; [exact B|].
           unfold source_text in T. fold cs in T. rewrite <- (firstn_skipn n cs), map_app in T.
           assert (LF : length (map snd (firstn n cs)) = n) by (rewrite map_length, firstn_length; lia).
           apply (f_equal (skipn n)) in T. rewrite !skipn_app, LF in T. fold n in T. rewrite Nat.sub_diag in T.
           rewrite (skipn_all2 (map snd (firstn n cs))) in T by lia.
           rewrite (skipn_all2 (writing ps)) in T by (fold n; lia). cbn in T. symmetry. exact T.
    + rewrite F. eapply in_order_weaken; [| |exact IO]; lia.
    + apply CH. intros k KL LT. destruct (Nat.lt_ge_cases k n) as [|GE]; auto.
      pose proof (byte_of_le cs PL k n GE ltac:(lia)). lia.
Qed.
