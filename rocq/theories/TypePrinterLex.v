(** Lexing what is written with names, spaces and a few symbols. *)
From Coq Require Import String NArith ZArith Bool List Lia.
From Verif Require Import Text TextProofs Strings StringsSpec SrcSpan Lexer LexerSpec LexerProofs LexerSymbols LexerWhole LexerCuts.
Require Import ZifyBool ZifyNat ZifyN.
Import ListNotations.
Open Scope N_scope.
Open Scope list_scope.

(** The pieces types are written with. *)
Inductive simple : piece -> Prop :=
| simple_space : simple (Gap [32])
| simple_upname c w : an_upper c -> Forall a_word_character w -> simple (Tok (UpName (c :: w)) (c :: w))
| simple_word t w : word t w -> simple (Tok t w)
| simple_symbol s : In s [LeftParen; RightParen; Comma; Dot; RArrow; Hash] -> simple (Tok (Symbol s) (symbol_text s)).
(** What may follow. *)
Definition apart (p : piece) (rest : text) : Prop :=
  match p with
  | Gap _ => True
  | Tok (Symbol Dot) _ => followed (fun c => a_lower c \/ an_upper c) rest
  | Tok (Symbol _) _ => True
  | Tok _ _ => ~ followed a_word_character rest /\ ~ negative_ahead rest
  end.
Fixpoint spaced (ps : list piece) : Prop :=
  match ps with
  | [] => True
  | p :: ps => simple p /\ apart p (writing ps) /\ spaced ps
  end.

Lemma run_unique (p : N -> Prop) w : forall w' r r',
  Forall p w -> Forall p w' -> ~ followed p r -> ~ followed p r' -> w ++ r = w' ++ r' -> w = w' /\ r = r'.
Proof.
  induction w as [|c w IH]; intros w' r r' F F' Nr Nr' E.
  - destruct w' as [|c' w']; [auto|]. cbn in E. subst r. destruct Nr. cbn. now inversion F'.
  - destruct w' as [|c' w'].
    + cbn in E. subst r'. destruct Nr'. cbn. now inversion F.
    + cbn in E. injection E as -> E. inversion F; subst. inversion F'; subst.
      destruct (IH w' r r') as [-> ->]; auto.
Qed.

Lemma word_all t w : word t w -> exists c u, w = c :: u /\ (a_lower c \/ c = 95) /\ Forall a_word_character (c :: u).
Proof.
  intros W. destruct W as [k|c w L F K|w F].
  - assert (A : exists c u, keyword_text k = c :: u) by (destruct k; cbn; eauto).
    destruct A as [c [u E]]. exists c, u. split; [exact E|].
    assert (B : forallb (fun d => is_name_continuation (Some d)) (keyword_text k) = true) by (destruct k; reflexivity).
    assert (L : is_lower (hd 0 (keyword_text k)) = true) by (destruct k; reflexivity).
    rewrite E in B, L. split.
    + left. now apply lower_iff.
    + apply word_characters_bool. rewrite Forall_forall. rewrite forallb_forall in B. exact B.
  - exists c, w. split; [reflexivity|]. split; [auto|]. constructor; [unfold a_word_character; auto|auto].
  - exists 95, w. split; [reflexivity|]. split; [auto|]. constructor; [unfold a_word_character; auto|auto].
Qed.

Lemma keyword_text_injective k k' : keyword_text k = keyword_text k' -> k = k'.
Proof. intros E. pose proof (proj2 (keyword_iff (keyword_text k) k) eq_refl) as A.
  pose proof (proj2 (keyword_iff (keyword_text k) k') E) as B. congruence. Qed.

Lemma word_unique t t' w : word t w -> word t' w -> t = t'.
Proof.
  intros W W'. inversion W as [k E1 E2|c u L F K E1 E2|u F E1 E2]; subst; inversion W' as [k' E3 E4|c' u' L' F' K' E3 E4|u' F' E3 E4]; subst; auto.
  - f_equal. apply keyword_text_injective. congruence.
  - exfalso. eapply K'. symmetry; eassumption || (rewrite <- E4; reflexivity).
  - exfalso. destruct k; discriminate E4.
  - exfalso. eapply K. symmetry. first [eassumption | rewrite E4; reflexivity].
  - unfold a_lower, between in *. lia.
  - exfalso. destruct k'; discriminate E4.
  - unfold a_lower, between in *; lia.
Qed.

Lemma sign_cases m sg : sign m sg -> m = [] \/ m = [45].
Proof. intros S. inversion S; subst; auto. Qed.
Lemma decimal_first s v : decimal_int s v -> exists d u, s = d :: u /\ a_digit d.
Proof. intros [_ F]. destruct s as [|d u]; [destruct F|]. exists d, u. auto. Qed.

(** How numbers start. *)
Definition starts_number (s : text) : Prop :=
  exists d u, a_digit d /\ (s = d :: u \/ s = 45 :: d :: u).
Lemma signed_start m sg s : sign m sg -> (exists d u, s = d :: u /\ a_digit d) -> starts_number (m ++ s).
Proof.
  intros S [d [u [-> D]]]. exists d, u. split; [auto|].
  destruct (sign_cases _ _ S) as [->| ->]; cbn; auto.
Qed.
Lemma zero_first letter u : exists d u', 48 :: letter :: u = d :: u' /\ a_digit d.
Proof. exists 48, (letter :: u). split; [reflexivity|]. unfold a_digit, between; lia. Qed.
Lemma starts_number_app s r : starts_number s -> starts_number (s ++ r).
Proof. intros [d [u [D [->| ->]]]]; exists d, (u ++ r); cbn; auto. Qed.
Lemma number_start radix t w rest : number radix t w rest -> starts_number w.
Proof.
  intros H. destruct H.
  - eapply signed_start; eauto using decimal_first.
  - eapply signed_start; eauto. apply zero_first.
  - rewrite app_assoc. apply starts_number_app. eapply signed_start; eauto using decimal_first.
  - rewrite app_assoc. apply starts_number_app. eapply signed_start; eauto using decimal_first.
Qed.
Lemma starts_number_not c u : starts_number (c :: u) -> a_digit c \/ (c = 45 /\ followed a_digit u).
Proof. intros [d [v [D [E|E]]]]; injection E as -> ->; cbn; auto. Qed.

Ltac texts := unfold a_word_character, blank in *; unfold a_lower, an_upper, a_digit in *; unfold between in *.
(** What a piece can start with. *)
Inductive start_of : N -> text -> list piece -> text -> Prop :=
| start_blank c u : blank c -> start_of c u [Gap [c]] u
| start_newline u : start_of 10 u [Tok NewLine [10]] u
| start_upname c w rest : an_upper c -> Forall a_word_character w -> ~ followed a_word_character rest ->
    start_of c (w ++ rest) [Tok (UpName (c :: w)) (c :: w)] rest
| start_word t c w rest : word t (c :: w) -> ~ followed a_word_character rest -> ~ negative_ahead rest ->
    start_of c (w ++ rest) [Tok t (c :: w)] rest
| start_word_minus t c w rest : word t (c :: w) -> followed a_digit rest ->
    start_of c (w ++ 45 :: rest) [Tok t (c :: w); Tok (Symbol Minus) (str "-")] rest
| start_number c u ps rest : a_digit c \/ (c = 45 /\ followed a_digit u) -> start_of c u ps rest
| start_symbol s c u w rest : s <> Equal -> s <> EqualEqual -> longest s rest ->
    (s = Minus \/ s = Dot -> ~ followed a_digit rest) -> symbol_text s = c :: w -> u = w ++ rest ->
    start_of c u [Tok (Symbol s) (symbol_text s)] rest
| start_dot u ps rest : followed a_digit u -> start_of 46 u ps rest
| start_other c u ps rest : c = 61 \/ c = 34 \/ (c = 47 /\ followed_by "/" u) -> start_of c u ps rest.
Lemma item_start ps rest c u : item ps rest -> writing ps ++ rest = c :: u -> start_of c u ps rest.
Proof.
  intros I E. inversion I; subst; cbn [writing flat_map written] in E; rewrite ?app_nil_r in E.
  - cbn in E. injection E as -> ->. now constructor.
  - cbn in E. injection E as <- ->. constructor.
  - cbn in E. injection E as -> <-. now constructor.
  - destruct (word_all _ _ H) as [c' [w' [-> _]]]. cbn in E. injection E as -> <-. now constructor.
  - destruct (word_all _ _ H) as [c' [w' [-> _]]]. cbn in E. rewrite <- app_assoc in E. cbn in E.
    injection E as -> <-. now constructor.
  - apply start_number. destruct H as [radix [N _]]. apply number_start in N. apply starts_number_not.
    rewrite <- E. now apply starts_number_app.
  - apply start_number. destruct H as [radix [N _]]. apply number_start in N. apply starts_number_not.
    rewrite <- E. now apply starts_number_app, starts_number_app.
  - destruct (symbol_text s) as [|c' w] eqn:Es; [destruct s; discriminate Es|].
    cbn in E. injection E as -> <-. rewrite <- Es in *. eapply start_symbol; eauto.
  - apply start_other. left. inversion H; subst; cbn in E; congruence.
  - cbn in E. injection E as <- <-. apply start_dot. destruct (decimal_first _ _ H) as [d [u' [-> D]]]. exact D.
  - cbn in E. injection E as <- <-. apply start_other; auto.
  - cbn in E. injection E as <- <-. apply start_other. right; right. split; [auto|]. eexists; reflexivity.
  - cbn in E. injection E as <- <-. apply start_other. right; right. split; [auto|]. eexists; reflexivity.
  - cbn in E. injection E as <- <-. apply start_other. right; right. split; [auto|]. eexists; reflexivity.
Qed.
(** What cannot be read starts otherwise. *)
Lemma bad_start kind before marked c u : bad kind before marked (c :: u) ->
  In c look_alikes \/ ~ known_start c \/ (c = 38 /\ ~ followed_by "&" u)
  \/ (exists v r, In v procedural /\ c :: u = v ++ r) \/ merge_conflict c (c :: u)
  \/ c = 61 \/ c = 34 \/ starts_number (c :: u).
Proof.
  intros B. inversion B; subst; auto 10;
    try (do 7 right; rewrite ?app_assoc; repeat apply starts_number_app;
         first [eapply number_start; eassumption
               | eapply signed_start; eauto using decimal_first; fail
               | rewrite <- ?app_assoc; eapply signed_start; eauto; apply zero_first]).
  - right; right; right; left. eauto.
  - right; right; right; right; left. destruct H as [A [r' E]]. cbn in H0. injection H0 as -> ->.
    split; [auto|]. exists r. reflexivity.
  - do 7 right. eapply signed_start; eauto. apply zero_first.
  - do 7 right. eapply signed_start; eauto. apply zero_first.
  - do 7 right. rewrite app_assoc. apply starts_number_app. eapply signed_start; eauto using decimal_first.
Qed.

Lemma symbol_first s : exists c w, symbol_text s = c :: w /\ known_start c /\ ~ a_word_character c /\ ~ blank c /\ c <> 10.
Proof.
  destruct s; eexists; eexists; (split; [reflexivity|]); (split; [right; right; cbn; auto 40|]); (split; [|split]); cbn; texts; lia.
Qed.
Lemma simple_start p : simple p -> exists c u, written p = c :: u /\ known_start c /\ c < 127 /\ c <> 13 /\
   (forall r, apart p r -> ~ starts_number (c :: u ++ r)) /\ c <> 61 /\ c <> 34 /\ c <> 38 /\ c <> 60 /\ c <> 62 /\ c <> 47
   /\ (forall r v w, apart p r -> In v procedural -> c :: u ++ r <> v ++ w).
Proof.
  intros S. destruct S as [|c w U F|t w W|s I].
  - exists 32, []. cbn. repeat split; try lia; try congruence.
    + right; left. left; auto.
    + intros r _ [d [v [D [E|E]]]]; texts; injection E as E1 E2; try lia.
    + intros r v w _ I E. cbn in I. repeat (destruct I as [<-|I]; [discriminate E|]). destruct I.
  - exists c, w. cbn. texts. repeat split; try lia.
    + left. texts. lia.
    + intros r _ [d [v [D [E|E]]]]; texts; injection E as E1 E2; lia.
    + intros r v w' _ I E. cbn in I. repeat (destruct I as [<-|I]; [cbn in E; injection E as E1 _; lia|]). destruct I.
  - destruct (word_all _ _ W) as [c [u [-> [L F]]]]. exists c, u. cbn. inversion F; subst. texts. repeat split; try lia.
    + left. texts. lia.
    + intros r _ [d [v [D [E|E]]]]; texts; injection E as E1 E2; lia.
    + intros r v w' _ I E. cbn in I. repeat (destruct I as [<-|I]; [cbn in E; injection E as E1 _; lia|]). destruct I.
  - cbn in I.
    destruct I as [<-|[<-|[<-|[<-|[<-|[<-|[]]]]]]]; eexists; eexists; (split; [reflexivity|]);
      (split; [right; right; cbn; auto 40|]); cbn; (split; [lia|]); (split; [lia|]);
      (split; [intros r A [d [v [D [E|E]]]]; texts; cbn in E; injection E; intros; try lia; try congruence|]);
      (repeat (split; [lia|]));
      intros r v w A I' E; cbn in I'; repeat (destruct I' as [<-|I']; [discriminate E|]); destruct I'.
Qed.
Lemma simple_not_bad p rest kind before marked : simple p -> apart p rest -> ~ bad kind before marked (written p ++ rest).
Proof.
  intros S A B. destruct (simple_start p S) as [c [u [E [K [L [L2 [N [C1 [C2 [C3 [C4 [C5 [C6 P]]]]]]]]]]]]].
  rewrite E in B. cbn in B. apply bad_start in B.
  destruct B as [B|[B|[B|[B|[B|[B|[B|B]]]]]]]; try (now destruct B); try tauto.
  - unfold look_alikes in B. cbn in B. repeat (destruct B as [B|B]; [lia|]). destruct B.
  - destruct B as [v [r [I E']]]. eapply P; eauto.
  - destruct B as [[B|[B|B]] _]; tauto.
  - eapply N; eauto.
Qed.
Lemma simple_item p rest ps rest' :
  simple p -> apart p rest -> item ps rest' -> writing ps ++ rest' = written p ++ rest -> ps = [p] /\ rest' = rest.
Proof.
  intros S A I E. destruct (simple_start p S) as [c [u [Ew [K [L [L2 [N [C1 [C2 [C3 [C4 [C5 [C6 P]]]]]]]]]]]]].
  rewrite Ew in E. cbn in E. pose proof (item_start _ _ _ _ I E) as H. specialize (N rest A).
  clear I E. remember (u ++ rest) as v eqn:Ev.
  destruct H as [c v B0|v|c w0 rest' U0 F0 R0|t1 c w0 rest' W1 R1 R2|t1 c w0 rest' W1 R1|c v ps rest' D|s1 c v w1 rest' S1 S2 S3 S4 S5 S6|v ps rest' D|c v ps rest' O];
    try subst v.
  - (* blank *) destruct S as [|c' w U F|t w W|s Is]; cbn in Ew.
    + injection Ew as <- <-. auto.
    + injection Ew as -> ->. texts. lia.
    + destruct (word_all _ _ W) as [c' [u' [-> [L' F]]]]. injection Ew as -> ->. texts. lia.
    + destruct (symbol_first s) as [c' [w [Es [_ [_ [B _]]]]]]. rewrite Es in Ew. injection Ew as -> ->. tauto.
  - destruct S as [|c' w U F|t w W|s Is]; cbn in Ew.
    + discriminate Ew.
    + injection Ew as -> ->. texts. lia.
    + destruct (word_all _ _ W) as [c' [u' [-> [L' F]]]]. injection Ew as -> ->. texts. lia.
    + destruct (symbol_first s) as [c' [w [Es [_ [_ [_ B]]]]]]. rewrite Es in Ew. injection Ew as -> ->. tauto.
  - (* upname *) destruct S as [|c' w' U F|t w' W|s Is]; cbn in Ew.
    + injection Ew as <- <-. texts. lia.
    + injection Ew as -> ->. destruct A as [A _]. destruct (run_unique _ _ _ _ _ F0 F R0 A Ev) as [-> ->]. auto.
    + destruct (word_all _ _ W) as [c' [u' [-> [L' F]]]]. injection Ew as -> ->. texts. lia.
    + destruct (symbol_first s) as [c' [w'' [Es [_ [B _]]]]]. rewrite Es in Ew. injection Ew as -> ->.
      destruct B. texts. auto.
  - (* word *)
    assert (F0 : (a_lower c \/ c = 95) /\ Forall a_word_character (c :: w0)).
    { destruct (word_all _ _ W1) as [c0 [w1 [E0 [L0 F0]]]]. injection E0 as -> ->. auto. }
    destruct F0 as [L0 F0].
    destruct S as [|c' w' U F|t0 w' W|s Is]; cbn in Ew.
    + injection Ew as <- <-. texts. lia.
    + injection Ew as -> ->. texts. lia.
    + destruct (word_all _ _ W) as [c' [u' [-> [L' F]]]]. injection Ew as -> ->.
      assert (A' : ~ followed a_word_character rest) by (destruct W; apply A).
      destruct (run_unique _ (c :: w0) (c :: u) rest' rest F0 F R1 A') as [E1 ->]; [cbn; congruence|].
      injection E1 as ->. split; [|reflexivity]. now rewrite (word_unique _ _ _ W W1).
    + destruct (symbol_first s) as [c' [w'' [Es [_ [B _]]]]]. rewrite Es in Ew. injection Ew as -> ->.
      inversion F0; tauto.
  - (* a word and a minus sign *)
    assert (F0 : (a_lower c \/ c = 95) /\ Forall a_word_character (c :: w0)).
    { destruct (word_all _ _ W1) as [c0 [w1 [E0 [L0 F0]]]]. injection E0 as -> ->. auto. }
    destruct F0 as [L0 F0].
    destruct S as [|c' w' U F|t0 w' W|s Is]; cbn in Ew.
    + injection Ew as <- <-. texts. lia.
    + injection Ew as -> ->. texts. lia.
    + destruct (word_all _ _ W) as [c' [u' [-> [L' F]]]]. injection Ew as -> ->.
      assert (A' : ~ followed a_word_character rest /\ ~ negative_ahead rest) by (destruct W; apply A).
      destruct A' as [A1 A2].
      destruct (run_unique _ (c :: w0) (c :: u) (45 :: rest') rest F0 F) as [E1 E2]; [cbn; texts; lia|auto|cbn; congruence|].
      destruct A2. destruct rest' as [|d r]; [destruct R1|]. exists d, r. split; [auto|]. exact R1.
    + destruct (symbol_first s) as [c' [w'' [Es [_ [B _]]]]]. rewrite Es in Ew. injection Ew as -> ->.
      inversion F0; tauto.
  - (* number *) exfalso. apply N. destruct D as [D|[-> D]].
    + exists c, (u ++ rest). auto.
    + destruct (u ++ rest) as [|d v]; [destruct D|]. exists d, v. auto.
  - (* symbol *)
    destruct (symbol_first s1) as [c' [w' [Es [_ [B1 [B2 _]]]]]]. rewrite Es in S5. injection S5 as -> ->.
    destruct S as [|c' w'' U F|t0 w'' W|s0 Is]; cbn in Ew.
    + injection Ew as <- <-. destruct B2. texts. auto.
    + injection Ew as -> ->. destruct B1. texts. auto.
    + destruct (word_all _ _ W) as [c' [u' [-> [L' F]]]]. injection Ew as -> ->. inversion F; tauto.
    + enough (s1 = s0) as -> by (split; [reflexivity|]; rewrite Es in Ew; injection Ew as ->; apply app_inv_head in S6; auto).
      cbn in Is.
      destruct Is as [<-|[<-|[<-|[<-|[<-|[<-|[]]]]]]]; cbn in Ew; injection Ew as <- <-; destruct s1; cbn in Es; try discriminate Es; try reflexivity;
         injection Es as <-; cbn in S6, A; try discriminate S6; exfalso.
      * subst rest. cbn in A. texts. lia.
      * destruct S3 as [LL _]. specialize (LL RArrow rest). rewrite <- S6 in LL. specialize (LL eq_refl). cbn in LL. lia.
  - (* a dot and a number *)
    destruct S as [|c' w'' U F|t0 w' W|s0 Is]; cbn in Ew.
    + discriminate Ew.
    + injection Ew as -> ->. texts. lia.
    + destruct (word_all _ _ W) as [c' [u' [-> [L' F]]]]. injection Ew as -> ->. texts; lia.
    + cbn in Is. destruct Is as [<-|[<-|[<-|[<-|[<-|[<-|[]]]]]]]; cbn in Ew; try discriminate Ew.
      injection Ew as <-. cbn in D, A. destruct rest; [destruct A|]. cbn in *. texts. lia.
  - destruct O as [->|[->|[-> _]]]; tauto.
Qed.

Fixpoint tokens (ps : list piece) : list token :=
  match ps with
  | [] => []
  | Gap _ :: ps => tokens ps
  | Tok t _ :: ps => t :: tokens ps
  end.
Lemma tokens_app ps qs : tokens (ps ++ qs) = tokens ps ++ tokens qs.
Proof. induction ps as [|[w|t w] ps IH]; cbn; congruence. Qed.

Lemma spaced_items ps : forall ps' rest, spaced ps -> items ps' rest -> writing ps = writing ps' ++ rest ->
  (rest = [] \/ exists kind before marked, bad kind before marked rest) -> ps' = ps /\ rest = [].
Proof.
  induction ps as [|p ps IH]; intros ps' rest S I E R.
  - cbn in E. symmetry in E. apply app_eq_nil in E. destruct E as [E ->]. split; [|reflexivity].
    inversion I as [|qs qs' r H _]; subst; [reflexivity|]. apply item_size in H. rewrite writing_app in E.
    apply app_eq_nil in E. destruct E as [E _]. rewrite E in H. cbn in H. lia.
  - destruct S as [S [A Ss]]. cbn [writing flat_map] in E. change (flat_map written ps) with (writing ps) in E.
    destruct I as [rest|qs qs' rest H I].
    + exfalso. cbn in E. destruct R as [->|[k [b [m B]]]].
      * destruct (simple_start p S) as [c [u [Ew _]]]. rewrite Ew in E. discriminate E.
      * rewrite <- E in B. eapply simple_not_bad; eauto.
    + rewrite writing_app, <- app_assoc in E. symmetry in E.
      destruct (simple_item p (writing ps) qs (writing qs' ++ rest) S A H E) as [-> E'].
      destruct (IH qs' rest Ss I) as [-> ->]; auto.
Qed.

Lemma spaced_characters ps : spaced ps -> Forall (fun c => c < 127 /\ c <> 13) (writing ps).
Proof.
  induction ps as [|p ps IH]; cbn; [constructor|]. intros [S [_ Ss]]. apply Forall_app. split; [|auto].
  destruct S as [|c w U F|t w W|s I]; cbn.
  - repeat constructor; lia.
  - constructor; [texts; lia|]. eapply Forall_impl; [|exact F]. intros; texts; lia.
  - destruct (word_all _ _ W) as [c [u [-> [_ F]]]]. eapply Forall_impl; [|exact F]. intros; texts; lia.
  - cbn in I. destruct I as [<-|[<-|[<-|[<-|[<-|[<-|[]]]]]]]; cbn; repeat constructor; lia.
Qed.
Lemma characters_plain s : forall i, Forall (fun c => c < 127 /\ c <> 13) s -> map snd (characters i s) = s.
Proof.
  induction s as [|c s IH]; intros i F; [reflexivity|]. inversion F; subst. cbn [characters].
  replace (c =? 13) with false by lia. cbn. f_equal. apply IH. auto.
Qed.
Lemma source_plain s : Forall (fun c => c < 127 /\ c <> 13) s -> source_text s = s.
Proof.
  intros F. unfold source_text, source_characters. destruct s as [|c s]; [reflexivity|].
  replace (c =? 0xFEFF) with false by (inversion F; lia). now apply characters_plain.
Qed.
Lemma spans_tokens cs ps : forall k, map (fun t => snd (fst t)) (spans cs k ps) = tokens ps.
Proof. induction ps as [|[w|t w] ps IH]; intros k; cbn; [auto|auto|]. f_equal. auto. Qed.

Lemma bad_nil kind before marked : ~ bad kind before marked [].
Proof.
  intros B. inversion B; subst; try (match goal with H : _ = [] |- _ => apply app_eq_nil in H; destruct H; subst end); try discriminate.
  - match goal with H : In [] procedural |- _ => cbn in H; repeat (destruct H as [H|H]; [discriminate H|]); destruct H end.
  - match goal with H : number _ _ [] _ |- _ => apply number_start in H; destruct H as [d [u [_ [E|E]]]]; discriminate E end.
  - match goal with H : _ ++ _ = [] |- _ => apply app_eq_nil in H; destruct H; discriminate end.
Qed.

(** What is written with spaced pieces lexes to their tokens. *)
Lemma lex_spaced ps : spaced ps ->
  exists ts, lex (writing ps) = (ts, Finished) /\ map (fun t => snd (fst t)) ts = tokens ps.
Proof.
  intros S. destruct (lex_spec (writing ps)) as [ps' [rest [E [I [T R]]]]].
  rewrite (source_plain _ (spaced_characters _ S)) in E.
  destruct (spaced_items ps ps' rest S I E) as [-> ->].
  { destruct R as [[_ R]|[r [b [m [_ [B _]]]]]]; eauto 10. }
  exists (fst (lex (writing ps))). split.
  - destruct (lex (writing ps)) as [ts o]. cbn in *. destruct R as [[-> _]|[r [b [m [_ [B _]]]]]]; [reflexivity|].
    now apply bad_nil in B.
  - rewrite T. apply spans_tokens.
Qed.
