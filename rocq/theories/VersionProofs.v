From Coq Require Import NArith ZArith Bool String List Lia Arith.
From Verif Require Import Text TextProofs Version VersionSpec.
Import ListNotations.
Open Scope N_scope.
Local Arguments N.eqb : simpl never.
Local Arguments N.ltb : simpl never.
Local Arguments N.leb : simpl never.

(** ** Order *)
Section lexicographic.
  Context {A : Type} (c : A -> A -> comparison) (R : A -> A -> Prop).
  Fixpoint list_cmp (a b : list A) : comparison :=
    match a, b with
    | [], [] => Eq
    | [], _ => Lt
    | _, [] => Gt
    | x :: a, y :: b => match c x y with Eq => list_cmp a b | r => r end
    end.
  Hypothesis c_eq : forall x y, c x y = Eq <-> x = y.
  Hypothesis c_lt : forall x y, c x y = Lt <-> R x y.
  Hypothesis c_opp : forall x y, c y x = CompOpp (c x y).
  Lemma list_cmp_eq a : forall b, list_cmp a b = Eq <-> a = b.
  Proof.
    induction a as [|x a IH]; intros [|y b]; simpl; try (split; congruence).
    destruct (c x y) eqn:E.
    - apply c_eq in E as ->. rewrite IH. split; congruence.
    - split; [discriminate|]. intros [= -> ->].
      assert (c y y = Eq) by now apply c_eq. congruence.
    - split; [discriminate|]. intros [= -> ->].
      assert (c y y = Eq) by now apply c_eq. congruence.
  Qed.
  Lemma list_cmp_lt a : forall b, list_cmp a b = Lt <-> dictionary R a b.
  Proof.
    induction a as [|x a IH]; intros [|y b]; simpl.
    - split; [discriminate|]. inversion 1.
    - split; [constructor|reflexivity].
    - split; [discriminate|]. inversion 1.
    - destruct (c x y) eqn:E.
      + apply c_eq in E as ->. rewrite IH. split.
        * now constructor.
        * inversion 1; subst; auto.
          assert (c y y = Eq) by now apply c_eq.
          assert (c y y = Lt) by now apply c_lt. congruence.
      + apply c_lt in E. split; auto. intros _. now constructor.
      + split; [discriminate|]. inversion 1; subst.
        * assert (c x y = Lt) by now apply c_lt. congruence.
        * assert (c y y = Eq) by now apply c_eq. congruence.
  Qed.
  Lemma list_cmp_opp a : forall b, list_cmp b a = CompOpp (list_cmp a b).
  Proof.
    induction a as [|x a IH]; intros [|y b]; simpl; auto.
    rewrite c_opp. destruct (c x y); simpl; auto.
  Qed.
  Hypothesis R_trans : forall x y z, R x y -> R y z -> R x z.
  Lemma dictionary_trans a b : dictionary R a b -> forall d, dictionary R b d -> dictionary R a d.
  Proof.
    induction 1; intros d Hd; inversion Hd; subst; try (constructor; eauto; fail).
  Qed.
End lexicographic.

Lemma text_cmp_is a b : text_cmp a b = list_cmp N.compare a b.
Proof. revert b; induction a; intros [|]; simpl; try reflexivity; now rewrite IHa. Qed.
Lemma identifiers_cmp_is a b : identifiers_cmp a b = list_cmp identifier_cmp a b.
Proof. revert b; induction a; intros [|]; simpl; try reflexivity; now rewrite IHa. Qed.

Lemma identifier_cmp_eq x y : identifier_cmp x y = Eq <-> x = y.
Proof.
  destruct x, y; simpl; try (split; congruence).
  - rewrite N.compare_eq_iff. split; congruence.
  - rewrite text_cmp_is, list_cmp_eq by apply N.compare_eq_iff. split; congruence.
Qed.
Lemma identifier_cmp_lt x y : identifier_cmp x y = Lt <-> identifier_lt x y.
Proof.
  destruct x, y; simpl.
  - rewrite N.compare_lt_iff. split; [now constructor|now inversion 1].
  - split; [constructor|reflexivity].
  - split; [discriminate|inversion 1].
  - rewrite text_cmp_is, list_cmp_lt; [|apply N.compare_eq_iff|apply N.compare_lt_iff].
    split; [now constructor|now inversion 1].
Qed.
Lemma identifier_cmp_opp x y : identifier_cmp y x = CompOpp (identifier_cmp x y).
Proof.
  destruct x, y; simpl; auto; [apply N.compare_antisym|].
  rewrite !text_cmp_is. apply list_cmp_opp. intros; apply N.compare_antisym.
Qed.

Lemma pre_cmp_eq a b : pre_cmp a b = Eq <-> a = b.
Proof.
  destruct a, b; try (simpl; split; congruence).
  unfold pre_cmp. rewrite identifiers_cmp_is. apply list_cmp_eq, identifier_cmp_eq.
Qed.
Lemma pre_cmp_lt a b : pre_cmp a b = Lt <->
  (a <> [] /\ b = []) \/ (a <> [] /\ b <> [] /\ dictionary identifier_lt a b).
Proof.
  destruct a as [|x a], b as [|y b]; simpl; try (split; [discriminate|intuition congruence]).
  - split; auto. intros _. left. split; congruence.
  - change (match identifier_cmp x y with Eq => identifiers_cmp a b | c => c end)
      with (identifiers_cmp (x :: a) (y :: b)).
    rewrite identifiers_cmp_is, (list_cmp_lt _ identifier_lt) by (apply identifier_cmp_eq || apply identifier_cmp_lt).
    intuition congruence.
Qed.
Lemma pre_cmp_opp a b : pre_cmp b a = CompOpp (pre_cmp a b).
Proof.
  destruct a, b; auto. unfold pre_cmp. rewrite !identifiers_cmp_is.
  apply list_cmp_opp, identifier_cmp_opp.
Qed.

Lemma cmp_eq v w : cmp v w = Eq <-> same_precedence v w.
Proof.
  unfold cmp, same_precedence.
  destruct (N.compare_spec (major v) (major w)); simpl; try (split; [discriminate|lia]).
  destruct (N.compare_spec (minor v) (minor w)); simpl; try (split; [discriminate|lia]).
  destruct (N.compare_spec (patch v) (patch w)); simpl; try (split; [discriminate|lia]).
  rewrite pre_cmp_eq. intuition.
Qed.
Lemma cmp_lt v w : cmp v w = Lt <-> precedes v w.
Proof.
  unfold cmp.
  destruct (N.compare_spec (major v) (major w)); simpl.
  2:{ split; auto. intros _. now apply by_major. }
  2:{ split; [discriminate|]. inversion 1; lia. }
  destruct (N.compare_spec (minor v) (minor w)); simpl.
  2:{ split; auto. intros _. now apply by_minor. }
  2:{ split; [discriminate|]. inversion 1; lia. }
  destruct (N.compare_spec (patch v) (patch w)); simpl.
  2:{ split; auto. intros _. now apply by_patch. }
  2:{ split; [discriminate|]. inversion 1; lia. }
  rewrite pre_cmp_lt. split.
  - intros [[]|(? & ? & ?)]; [now apply prerelease_first|now apply by_prerelease].
  - inversion 1; subst; try lia; auto.
Qed.
Lemma cmp_opp v w : cmp w v = CompOpp (cmp v w).
Proof.
  unfold cmp. rewrite (N.compare_antisym (major v)), (N.compare_antisym (minor v)),
    (N.compare_antisym (patch v)), pre_cmp_opp.
  destruct (major v ?= major w); simpl; auto.
  destruct (minor v ?= minor w); simpl; auto.
  destruct (patch v ?= patch w); simpl; auto.
Qed.
Lemma cmp_gt v w : cmp v w = Gt <-> precedes w v.
Proof. rewrite <- cmp_lt, (cmp_opp v w). destruct (cmp v w); simpl; split; congruence. Qed.

Lemma identifier_lt_trans x y z : identifier_lt x y -> identifier_lt y z -> identifier_lt x z.
Proof.
  intros H1 H2. inversion H1; subst; inversion H2; subst; constructor; try lia.
  eapply dictionary_trans; eauto using N.lt_trans.
Qed.
Lemma precedes_trans u v w : precedes u v -> precedes v w -> precedes u w.
Proof.
  intros H1 H2.
  inversion H1; subst; inversion H2; subst;
    solve [ apply by_major; lia | apply by_minor; lia | apply by_patch; lia
          | congruence
          | apply prerelease_first; congruence
          | apply by_prerelease; try congruence; eauto using dictionary_trans, identifier_lt_trans ].
Qed.
Lemma precedes_irrefl v : ~ precedes v v.
Proof.
  rewrite <- cmp_lt. assert (cmp v v = Eq) by (apply cmp_eq; unfold same_precedence; auto). congruence.
Qed.
Lemma precedes_total v w : precedes v w \/ same_precedence v w \/ precedes w v.
Proof.
  destruct (cmp v w) eqn:E; [right; left; now apply cmp_eq|left; now apply cmp_lt|right; right; now apply cmp_gt].
Qed.
Lemma same_precedence_precedes_l u v w : same_precedence u v -> (precedes u w <-> precedes v w).
Proof.
  unfold same_precedence. intros (A & B & C & D). rewrite <- !cmp_lt. unfold cmp. now rewrite A, B, C, D.
Qed.
Lemma same_precedence_precedes_r u v w : same_precedence u v -> (precedes w u <-> precedes w v).
Proof.
  unfold same_precedence. intros (A & B & C & D). rewrite <- !cmp_lt. unfold cmp. now rewrite A, B, C, D.
Qed.

Lemma lt_spec v w : lt v w = true <-> precedes v w.
Proof. unfold lt. rewrite <- cmp_lt. destruct (cmp v w); split; congruence. Qed.
Lemma le_spec v w : le v w = true <-> ~ precedes w v.
Proof. unfold le. rewrite <- cmp_gt. destruct (cmp v w); split; congruence. Qed.
Lemma eq_spec v w : eq v w = true <-> same_precedence v w.
Proof. unfold eq. rewrite <- cmp_eq. destruct (cmp v w); split; congruence. Qed.

(** ** Lexer *)
Definition token_text (t : token) : text :=
  match t with
  | TEq => str "==" | TNotEq => str "!=" | TGt => str ">" | TLt => str "<" | TLtEq => str "<="
  | TGtEq => str ">=" | TPessimistic => str "~>" | TDot => str "." | THyphen => str "-"
  | TPlus => str "+" | TOr => str "or" | TAnd => str "and"
  | TWhitespace s => s
  | TNumeric n => decimal n
  | TAlphaNumeric s | TLeadingZero s => s
  end.

Definition component_text (s : text) : Prop := s <> [] /\ alphanumeric s /\ not_keyword s.

(** Tokens the lexer can produce. *)
Definition lexable (t : token) : Prop :=
  match t with
  | TWhitespace s => s <> [] /\ blank s
  | TNumeric n => n < 2 ^ 32
  | TAlphaNumeric s | TLeadingZero s => component_text s /\ classify s = t
  | _ => True
  end.

Definition head_is_not (p : N -> bool) (s : text) : Prop :=
  match s with [] => True | c :: _ => p c = false end.

(** What can come after a token. *)
Definition follows (t : token) (rest : text) : Prop :=
  match t with
  | TWhitespace _ => head_is_not is_whitespace rest
  | TNumeric _ | TAlphaNumeric _ | TLeadingZero _ => head_is_not is_alphanumeric rest
  | TGt | TLt => head_is_not (fun c => c =? 61) rest
  | _ => True
  end.

Lemma digit_alphanumeric c : is_digit c = true -> is_alphanumeric c = true.
Proof. unfold is_alphanumeric. now intros ->. Qed.
Lemma digits_alphanumeric s : Forall (fun c => is_digit c = true) s -> alphanumeric s.
Proof. intros H. eapply Forall_impl; [apply digit_alphanumeric|exact H]. Qed.
Lemma digits_not_keyword s : Forall (fun c => is_digit c = true) s -> not_keyword s.
Proof.
  intros H. unfold not_keyword. destruct s as [|c s]; [split; reflexivity|].
  inversion H as [|? ? Hc]; subst. simpl.
  split; apply andb_false_iff; left; apply N.eqb_neq; intros <-; discriminate Hc.
Qed.
Lemma decimal_component n : component_text (decimal n).
Proof.
  pose proof (decimal_digits n) as D. split; [|split].
  - destruct (decimal_first n) as (c & r & E & _). rewrite E. discriminate.
  - now apply digits_alphanumeric.
  - now apply digits_not_keyword.
Qed.

Lemma forallb_digits s : forallb is_digit s = true <-> Forall (fun c => is_digit c = true) s.
Proof. rewrite forallb_forall, Forall_forall. reflexivity. Qed.

Lemma parse_u32_some s n : parse_u32 s = Some n <->
  Forall (fun c => is_digit c = true) s /\ s <> [] /\ n = decimal_value s /\ n < 2 ^ 32.
Proof.
  unfold parse_u32. destruct (forallb is_digit s) eqn:D.
  - apply forallb_digits in D. destruct (N.ltb_spec (decimal_value s) (2 ^ 32)).
    + destruct (text_eqb s []) eqn:E.
      * apply text_eqb_eq in E. simpl. split; [discriminate|]. intuition.
      * apply text_eqb_neq in E. simpl. split; [intros [= <-]; auto|]. intros (_ & _ & -> & _). auto.
    + simpl. split; [discriminate|]. intros (_ & _ & -> & ?). lia.
  - simpl. split; [discriminate|]. intros (F & _). apply forallb_digits in F. congruence.
Qed.

Lemma classify_numeric s n : classify s = TNumeric n <-> s = decimal n /\ n < 2 ^ 32.
Proof.
  unfold classify. destruct s as [|a b].
  { split; [discriminate|]. intros [E _]. destruct (decimal_first n) as (c & r & E' & _).
    rewrite E' in E. discriminate. }
  destruct (N.eqb_spec a 48) as [->|A].
  - simpl andb. destruct (text_eqb b []) eqn:B.
    + apply text_eqb_eq in B as ->. split.
      * intros [= <-]. split; reflexivity.
      * intros [E _]. f_equal. apply decimal_inj. rewrite <- E. reflexivity.
    + split.
      * destruct (parse_u32 (48 :: b)); discriminate.
      * intros [E _]. destruct (decimal_first n) as (c & r & E' & Z). rewrite E' in E.
        injection E as <- <-. destruct (Z eq_refl) as [_ ->]. discriminate B.
  - simpl andb. cbv iota. destruct (parse_u32 (a :: b)) as [m|] eqn:P.
    + apply parse_u32_some in P. destruct P as (D & _ & -> & L). split.
      * intros [= <-]. split; auto. symmetry. eapply decimal_of_digits; eauto.
      * intros [E _]. rewrite E, decimal_value_decimal. reflexivity.
    + split; [discriminate|]. intros [E L]. exfalso.
      assert (parse_u32 (a :: b) = Some n).
      { apply parse_u32_some. rewrite E. repeat split; auto using decimal_digits.
        - destruct (decimal_first n) as (c & r & E' & _). rewrite E'. discriminate.
        - symmetry. apply decimal_value_decimal. }
      congruence.
Qed.

Lemma classify_leading s : classify s = TLeadingZero s <-> padded_number s.
Proof.
  unfold classify, padded_number. destruct s as [|a b].
  { split; [discriminate|]. intros (r & E & _). discriminate. }
  destruct (N.eqb_spec a 48) as [->|A].
  - simpl andb. destruct (text_eqb b []) eqn:B.
    + apply text_eqb_eq in B as ->. split; [discriminate|].
      intros (r & [= <-] & C & _). congruence.
    + apply text_eqb_neq in B. destruct (parse_u32 (48 :: b)) as [m|] eqn:P.
      * apply parse_u32_some in P. destruct P as (D & _ & -> & L). split; eauto 6.
      * split; [discriminate|]. intros (r & [= <-] & _ & D & L).
        assert (parse_u32 (48 :: b) = Some (decimal_value (48 :: b))).
        { apply parse_u32_some. repeat split; auto. discriminate. }
        congruence.
  - simpl andb. cbv iota. split.
    + destruct (parse_u32 (a :: b)); discriminate.
    + intros (r & [= -> <-] & _). congruence.
Qed.

Lemma classify_cases s : (exists n, classify s = TNumeric n) \/ classify s = TLeadingZero s
  \/ classify s = TAlphaNumeric s.
Proof.
  unfold classify. destruct s as [|a b]; auto.
  destruct ((a =? 48) && text_eqb b []); eauto.
  destruct (parse_u32 (a :: b)); [|auto]. destruct (a =? 48); eauto.
Qed.

Lemma classify_text s : token_text (classify s) = s.
Proof.
  destruct (classify_cases s) as [[n E]|[E|E]]; rewrite E; auto.
  apply classify_numeric in E. simpl. symmetry. tauto.
Qed.

Lemma classify_lexable s : component_text s -> lexable (classify s).
Proof.
  intros C. destruct (classify_cases s) as [[n E]|[E|E]]; rewrite E; simpl; auto.
  apply classify_numeric in E. tauto.
Qed.

Lemma follows_classify s rest : follows (classify s) rest <-> head_is_not is_alphanumeric rest.
Proof. destruct (classify_cases s) as [[n E]|[E|E]]; rewrite E; simpl; reflexivity. Qed.

Lemma app_cons_inv (c : N) s a b : c :: s = (a ++ b)%list -> a <> [] -> exists a', a = c :: a' /\ s = (a' ++ b)%list.
Proof. destruct a; [congruence|]. intros [= -> ->] _. eauto. Qed.

(** [component] on a whole component. *)
Lemma component_spec first rest t r : alphanumeric first -> first <> [] ->
  component first rest = (t, r) ->
  exists s, t = classify s /\ (first ++ rest = s ++ r)%list /\ (exists m, s = first ++ m)%list
    /\ alphanumeric s /\ head_is_not is_alphanumeric r.
Proof.
  intros F NE H. unfold component in H.
  destruct (span_while is_alphanumeric rest) as [m r'] eqn:E. injection H as <- <-.
  apply span_while_spec in E as (-> & Fm & Hr).
  exists (first ++ m)%list. rewrite app_assoc. repeat split; eauto.
  - apply Forall_app. now split.
Qed.
Lemma component_app first m r : alphanumeric m -> head_is_not is_alphanumeric r ->
  component first (m ++ r) = (classify (first ++ m), r).
Proof. intros A H. unfold component. now rewrite span_while_app. Qed.

Lemma lex_inversion s t r : lex_next s = Some (Tok t, r) ->
  s = (token_text t ++ r)%list /\ lexable t /\ follows t r.
Proof.
  unfold lex_next. destruct s as [|c s']; [discriminate|]. set (s := c :: s').
  assert (two : forall p x, length p = x -> starts_with p s = true -> (p ++ skipn x s = s)%list).
  { intros p x L S. apply starts_with_spec in S as [q ->]. subst x.
    now rewrite skipn_app, skipn_all, Nat.sub_diag. }
  destruct (starts_with (str "~>") s) eqn:E1.
  { intros [= <- <-]. split; [symmetry; exact (two (str "~>") 2%nat eq_refl E1)|simpl; auto]. }
  destruct (starts_with (str "!=") s) eqn:E2.
  { intros [= <- <-]. split; [symmetry; exact (two (str "!=") 2%nat eq_refl E2)|simpl; auto]. }
  destruct (starts_with (str "<=") s) eqn:E3.
  { intros [= <- <-]. split; [symmetry; exact (two (str "<=") 2%nat eq_refl E3)|simpl; auto]. }
  destruct (starts_with (str ">=") s) eqn:E4.
  { intros [= <- <-]. split; [symmetry; exact (two (str ">=") 2%nat eq_refl E4)|simpl; auto]. }
  destruct (starts_with (str "==") s) eqn:E5.
  { intros [= <- <-]. split; [symmetry; exact (two (str "==") 2%nat eq_refl E5)|simpl; auto]. }
  destruct (starts_with (str "or") s) eqn:E6.
  { intros [= <- <-]. split; [symmetry; exact (two (str "or") 2%nat eq_refl E6)|simpl; auto]. }
  destruct (starts_with (str "an") s) eqn:E7.
  { destruct (starts_with (str "and") s) eqn:E8.
    { intros [= <- <-]. split; [symmetry; exact (two (str "and") 3%nat eq_refl E8)|simpl; auto]. }
    destruct (component (str "an") (skipn 2 s)) as [t' r'] eqn:C. intros [= <- <-].
    apply component_spec in C as (w & -> & E & (m & Em) & A & H).
    2:{ repeat constructor. } 2:{ discriminate. }
    rewrite (two (str "an") 2%nat eq_refl E7) in E.
    rewrite classify_text, follows_classify. split; [|split]; auto.
    apply classify_lexable. split; [|split]; auto.
    - rewrite Em. discriminate.
    - rewrite E in E8. subst w. split; [reflexivity|].
      destruct m as [|x m]; [reflexivity|]. simpl in E8 |- *.
      destruct x; simpl in *; auto. }
  intros H. injection H as H. unfold lex_single in H.
  destruct (is_whitespace c) eqn:W.
  { destruct (span_while is_whitespace s') as [m r'] eqn:S. injection H as <- <-.
    apply span_while_spec in S as (S & Fm & Hr). unfold s. rewrite S. simpl. repeat split; auto.
    - discriminate.
    - now constructor. }
  destruct (N.eqb_spec c 62) as [->|N62].
  { injection H as <- <-. simpl. repeat split; auto. destruct s' as [|x ?]; simpl; auto.
    unfold s in E4. simpl in E4. destruct (N.eqb_spec x 61); subst; auto; discriminate. }
  destruct (N.eqb_spec c 60) as [->|N60].
  { injection H as <- <-. simpl. repeat split; auto. destruct s' as [|x ?]; simpl; auto.
    unfold s in E3. simpl in E3. destruct (N.eqb_spec x 61); subst; auto; discriminate. }
  destruct (N.eqb_spec c 46) as [->|N46]; [injection H as <- <-; simpl; auto|].
  destruct (N.eqb_spec c 45) as [->|N45]; [injection H as <- <-; simpl; auto|].
  destruct (N.eqb_spec c 43) as [->|N43]; [injection H as <- <-; simpl; auto|].
  destruct (is_alphanumeric c) eqn:A; [|discriminate].
  destruct (component [c] s') as [t' r'] eqn:C. injection H as <- <-.
  apply component_spec in C as (w & -> & E & (m & Em) & Aw & Hr).
  2:{ now repeat constructor. } 2:{ discriminate. }
  rewrite classify_text, follows_classify. split; [exact E|split; auto].
  apply classify_lexable. split; [|split]; auto.
  - rewrite Em. discriminate.
  - assert (P : forall p, starts_with p s = false -> starts_with p w = false).
    { intros p Hp. destruct (starts_with p w) eqn:S; auto.
      apply starts_with_spec in S as [q Eq].
      assert (starts_with p s = true); [|congruence].
      apply starts_with_spec. exists (q ++ r')%list. unfold s. change (c :: s') with ([c] ++ s')%list.
      rewrite E, Eq. now rewrite app_assoc. }
    split; apply P; auto.
    destruct (starts_with (str "and") s) eqn:S; auto.
    apply starts_with_spec in S as [q Eq]. exfalso.
    assert (starts_with (str "an") s = true); [|congruence].
    apply starts_with_spec. exists ([100] ++ q)%list. exact Eq.
Qed.

Lemma starts_with_component p w r : alphanumeric p -> head_is_not is_alphanumeric r ->
  starts_with p w = false -> starts_with p (w ++ r) = false.
Proof.
  intros Ap Hr. revert p Ap. induction w as [|x w IH]; intros p Ap H.
  - destruct p as [|y p]; [discriminate|]. destruct r as [|z r]; [reflexivity|].
    simpl in *. inversion Ap; subst. apply andb_false_iff. left.
    apply N.eqb_neq. intros ->. congruence.
  - destruct p as [|y p]; [discriminate|]. simpl in *. inversion Ap; subst.
    apply andb_false_iff in H. apply andb_false_iff. destruct H as [H|H]; auto.
Qed.

Lemma alphanumeric_not c (n : N) : is_alphanumeric c = true -> is_alphanumeric n = false -> c <> n.
Proof. intros A B ->. congruence. Qed.

Lemma lex_component w r : component_text w -> head_is_not is_alphanumeric r ->
  lex_next (w ++ r) = Some (Tok (classify w), r).
Proof.
  intros (NE & A & [K1 K2]) Hr.
  destruct w as [|c w]; [congruence|]. inversion A as [|? ? Ac Aw]; subst.
  assert (S2 : forall p, alphanumeric p -> starts_with p (c :: w) = false ->
                starts_with p ((c :: w) ++ r) = false).
  { intros p Hp Hs. now apply starts_with_component. }
  assert (S1 : forall p x, is_alphanumeric x = false -> starts_with (x :: p) ((c :: w) ++ r) = false).
  { intros p x Hx. simpl. apply andb_false_iff. left. apply N.eqb_neq. intros ->. congruence. }
  unfold lex_next. cbn [app].
  change (c :: (w ++ r)%list) with ((c :: w) ++ r)%list.
  change (starts_with (str "~>") ((c :: w) ++ r)) with (starts_with (126 :: str ">") ((c :: w) ++ r)).
  change (starts_with (str "!=") ((c :: w) ++ r)) with (starts_with (33 :: str "=") ((c :: w) ++ r)).
  change (starts_with (str "<=") ((c :: w) ++ r)) with (starts_with (60 :: str "=") ((c :: w) ++ r)).
  change (starts_with (str ">=") ((c :: w) ++ r)) with (starts_with (62 :: str "=") ((c :: w) ++ r)).
  change (starts_with (str "==") ((c :: w) ++ r)) with (starts_with (61 :: str "=") ((c :: w) ++ r)).
  rewrite !S1 by reflexivity.
  rewrite (S2 (str "or")); auto. 2:{ repeat constructor. }
  destruct (starts_with (str "an") ((c :: w) ++ r)) eqn:E7.
  - rewrite (S2 (str "and")); auto. 2:{ repeat constructor. }
    assert (exists m, c :: w = str "an" ++ m)%list as [m Em].
    { apply starts_with_spec. destruct (starts_with (str "an") (c :: w)) eqn:S; auto.
      rewrite (S2 (str "an")) in E7; auto; try discriminate. repeat constructor. }
    rewrite Em. rewrite <- app_assoc. cbn [skipn app str].
    rewrite component_app; auto.
    rewrite Em in A. apply Forall_app in A. tauto.
  - f_equal. unfold lex_single.
    assert (W : is_whitespace c = false).
    { unfold is_whitespace. destruct (N.eqb_spec c 32), (N.eqb_spec c 9), (N.eqb_spec c 10), (N.eqb_spec c 13); subst; auto; discriminate. }
    rewrite W.
    destruct (N.eqb_spec c 62) as [->|_]; [discriminate|].
    destruct (N.eqb_spec c 60) as [->|_]; [discriminate|].
    destruct (N.eqb_spec c 46) as [->|_]; [discriminate|].
    destruct (N.eqb_spec c 45) as [->|_]; [discriminate|].
    destruct (N.eqb_spec c 43) as [->|_]; [discriminate|].
    rewrite Ac, component_app; auto.
Qed.

Lemma lex_blank w r : w <> [] -> blank w -> head_is_not is_whitespace r ->
  lex_next (w ++ r) = Some (Tok (TWhitespace w), r).
Proof.
  intros NE B Hr. destruct w as [|c w]; [congruence|]. inversion B as [|? ? Wc Bw]; subst.
  assert (S1 : forall p x, is_whitespace x = false -> starts_with (x :: p) ((c :: w) ++ r) = false).
  { intros p x Hx. simpl. apply andb_false_iff. left. apply N.eqb_neq. intros ->. congruence. }
  unfold lex_next. cbn [app]. change (c :: (w ++ r)%list) with ((c :: w) ++ r)%list.
  change (starts_with (str "~>") ((c :: w) ++ r)) with (starts_with (126 :: str ">") ((c :: w) ++ r)).
  change (starts_with (str "!=") ((c :: w) ++ r)) with (starts_with (33 :: str "=") ((c :: w) ++ r)).
  change (starts_with (str "<=") ((c :: w) ++ r)) with (starts_with (60 :: str "=") ((c :: w) ++ r)).
  change (starts_with (str ">=") ((c :: w) ++ r)) with (starts_with (62 :: str "=") ((c :: w) ++ r)).
  change (starts_with (str "==") ((c :: w) ++ r)) with (starts_with (61 :: str "=") ((c :: w) ++ r)).
  change (starts_with (str "or") ((c :: w) ++ r)) with (starts_with (111 :: str "r") ((c :: w) ++ r)).
  change (starts_with (str "an") ((c :: w) ++ r)) with (starts_with (97 :: str "n") ((c :: w) ++ r)).
  rewrite !S1 by reflexivity.
  unfold lex_single. rewrite Wc. now rewrite span_while_app.
Qed.

Lemma lex_token t r : lexable t -> follows t r -> lex_next (token_text t ++ r) = Some (Tok t, r).
Proof.
  destruct t; simpl lexable; simpl follows; intros L F; try reflexivity.
  - destruct r as [|x r]; [reflexivity|]. simpl in F.
    assert (E : starts_with (str ">=") (62 :: x :: r) = false) by (simpl; rewrite N.eqb_sym, F; reflexivity).
    change (lex_next (62 :: x :: r) = Some (Tok TGt, x :: r)). unfold lex_next. rewrite E. reflexivity.
  - destruct r as [|x r]; [reflexivity|]. simpl in F.
    assert (E : starts_with (str "<=") (60 :: x :: r) = false) by (simpl; rewrite N.eqb_sym, F; reflexivity).
    change (lex_next (60 :: x :: r) = Some (Tok TLt, x :: r)). unfold lex_next. rewrite E. reflexivity.
  - destruct L. now apply lex_blank.
  - simpl token_text. rewrite lex_component; auto using decimal_component.
    replace (classify (decimal n)) with (TNumeric n); auto.
    symmetry. apply classify_numeric. auto.
  - simpl token_text. destruct L as [C E]. rewrite lex_component; auto. now rewrite E.
  - simpl token_text. destruct L as [C E]. rewrite lex_component; auto. now rewrite E.
Qed.

Lemma token_text_nonempty t : lexable t -> token_text t <> [].
Proof.
  destruct t; simpl; try discriminate; try tauto.
  - intros _. now destruct (decimal_component n).
  - intros [[? _] _]; auto.
  - intros [[? _] _]; auto.
Qed.

(** The whole input as tokens. *)
Inductive lexes : text -> list token -> Prop :=
| lexes_end : lexes [] []
| lexes_token t s ts : lexable t -> follows t s -> lexes s ts -> lexes (token_text t ++ s) (t :: ts).

Lemma lex_next_none s : lex_next s = None -> s = [].
Proof.
  unfold lex_next. destruct s as [|c s]; auto. intros H. exfalso.
  repeat match type of H with
  | (if ?b then _ else _) = _ => destruct b; try discriminate
  | (let '(_, _) := ?x in _) = _ => destruct x; discriminate
  end.
Qed.

Lemma lexes_step s t r us : lex_next s = Some (Tok t, r) -> lexes r us -> lexes s (t :: us).
Proof. intros H L. apply lex_inversion in H as (-> & A & B). now constructor. Qed.

(** The tokens from a parser state on. *)
Definition at_ (p : parser) (ts : list token) : Prop :=
  match ts with
  | [] => c1 p = None /\ input p = []
  | t :: ts => c1 p = Some t /\ lexes (input p) ts
  end.

Lemma advance_lexes s ts : lexes s ts -> exists p, advance s = Ok p /\ at_ p ts.
Proof.
  unfold advance. inversion 1 as [|t s' ts' L F Ls]; subst.
  - simpl. eexists; split; [reflexivity|]. split; reflexivity.
  - rewrite lex_token by auto. eexists; split; [reflexivity|]. split; auto.
Qed.
Lemma advance_inv s p us : advance s = Ok p -> at_ p us -> lexes s us.
Proof.
  unfold advance. destruct (lex_next s) as [[[t|c] r]|] eqn:E; try discriminate.
  - intros [= <-]. destruct us as [|u us]; [intros [? _]; discriminate|].
    intros [[= <-] L]. eapply lexes_step; eauto.
  - intros [= <-]. apply lex_next_none in E as ->. destruct us as [|u us]; [constructor|].
    intros [? _]; discriminate.
Qed.

Lemma pop_at p t ts : at_ p (t :: ts) -> exists q, pop p = Ok (t, q) /\ at_ q ts.
Proof.
  intros [C L]. destruct (advance_lexes _ _ L) as (q & A & Q). exists q. split; auto.
  unfold pop. rewrite A. simpl. now rewrite C.
Qed.

(** [ts] are the tokens between two states. *)
Definition sane (p : parser) : Prop := c1 p = None -> input p = [].
Definition between (p q : parser) (ts : list token) : Prop :=
  (sane p -> sane q) /\ forall us, at_ q us -> at_ p (ts ++ us).
Lemma advance_sane s p : advance s = Ok p -> sane p.
Proof.
  unfold advance. destruct (lex_next s) as [[[t|c] r]|] eqn:E; try discriminate.
  - intros [= <-]. discriminate.
  - intros [= <-]. intros _. reflexivity.
Qed.

Lemma between_refl p : between p p [].
Proof. split; auto. Qed.
Lemma between_trans p q r a b : between p q a -> between q r b -> between p r (a ++ b).
Proof. intros [S1 H1] [S2 H2]. split; auto. intros us H. rewrite <- app_assoc. auto. Qed.
Lemma pop_between p t q : pop p = Ok (t, q) -> c1 p = Some t /\ between p q [t].
Proof.
  unfold pop. destruct (advance (input p)) as [p'|e] eqn:A; [|discriminate]. simpl.
  destruct (c1 p) as [t'|] eqn:C; [|discriminate]. intros [= <- <-]. split; auto.
  split; [intros _; eapply advance_sane; eauto|].
  intros us H. split; auto. eapply advance_inv; eauto.
Qed.

(** ** The grammar of tokens *)
Inductive id_tok : list token -> identifier -> Prop :=
| id_alpha s : id_tok [TAlphaNumeric s] (AlphaNumeric s)
| id_num n : id_tok [TNumeric n] (Numeric n)
| id_more t i ts j : id_tok [t] i -> id_tok ts j ->
    id_tok (t :: THyphen :: ts) (concat (concat i (str "-")) (show_identifier j)).

Inductive more_tok : list token -> list identifier -> Prop :=
| more_none : more_tok [] []
| more_some ts i us is : id_tok ts i -> more_tok us is -> more_tok (TDot :: ts ++ us) (i :: is).

Inductive pre_tok : list token -> list identifier -> Prop :=
| pre_none : pre_tok [] []
| pre_some ts i us is : id_tok ts i -> more_tok us is -> pre_tok (THyphen :: ts ++ us) (i :: is).

Definition build_token (t : token) : Prop :=
  match t with TLeadingZero _ | TAlphaNumeric _ | TNumeric _ | TDot => True | _ => False end.
Definition build_tok (ts : list token) (b : text) : Prop :=
  Forall build_token ts /\ b = List.concat (map token_text ts).

Inductive build_opt_tok : list token -> option text -> Prop :=
| build_none : build_opt_tok [] None
| build_some ts b : build_tok ts b -> b <> [] -> build_opt_tok (TPlus :: ts) (Some b).

Inductive ws_tok : list token -> Prop :=
| ws_none : ws_tok []
| ws_some w : ws_tok [TWhitespace w].

Inductive core_tok : list token -> version -> Prop :=
| core a b c ps pre bs build : pre_tok ps pre -> build_opt_tok bs build ->
    core_tok ([TNumeric a; TDot; TNumeric b; TDot; TNumeric c] ++ ps ++ bs)
      (Version a b c pre build).

Definition starts (ts : list token) (t : token) : Prop := match ts with u :: _ => u = t | [] => False end.

(** ** Soundness: success means the tokens obey the grammar *)
Ltac inv_bind H :=
  match type of H with
  | bind ?r _ = Ok _ => let E := fresh "E" in destruct r eqn:E; [|discriminate H]; cbn [bind] in H
  end.

Lemma skip_whitespace_sound p q : skip_whitespace p = Ok q ->
  exists ts, ws_tok ts /\ between p q ts.
Proof.
  unfold skip_whitespace. intros H.
  destruct (c1 p) as [t|] eqn:C; [|injection H as <-; eauto using ws_none, between_refl].
  destruct t; try (injection H as <-; eauto using ws_none, between_refl; fail).
  inv_bind H. destruct a. injection H as <-. apply pop_between in E as [C' B].
  rewrite C in C'. injection C' as <-. eauto using ws_some.
Qed.
Lemma numeric_sound p n q : numeric p = Ok (n, q) -> between p q [TNumeric n].
Proof.
  unfold numeric. intros H. inv_bind H. destruct a as [t r]. destruct t; try discriminate.
  injection H as <- <-. now apply pop_between in E as [_ ?].
Qed.
Lemma dot_numeric_sound p n q : dot_numeric p = Ok (n, q) -> between p q [TDot; TNumeric n].
Proof.
  unfold dot_numeric. intros H. inv_bind H. unfold dot in E. inv_bind E. destruct a0 as [t r].
  destruct t; try discriminate. injection E as <-. apply pop_between in E0 as [_ ?].
  apply numeric_sound in H. exact (between_trans _ _ _ [_] [_] H0 H).
Qed.
Lemma identifier_sound f : forall p i q, identifier_ f p = Ok (i, q) ->
  exists ts, id_tok ts i /\ between p q ts.
Proof.
  induction f as [|f IH]; intros p i q H; [discriminate|]. cbn [identifier_] in H.
  inv_bind H. destruct a as [t r]. apply pop_between in E as [_ B].
  assert (T : exists id, id_tok [t] id /\
    match c1 r with
    | Some THyphen => let* (_, p) := pop r in let* (id', p) := identifier_ f p in
        Ok (concat (concat id (str "-")) (show_identifier id'), p)
    | _ => Ok (id, r) end = Ok (i, q)).
  { destruct t; try discriminate H; eexists; (split; [|exact H]); constructor. }
  clear H. destruct T as (id & T & H).
  assert (Stop : Ok (id, r) = Ok (i, q) -> exists ts, id_tok ts i /\ between p q ts).
  { intros [= <- <-]. eauto. }
  destruct (c1 r) as [u|] eqn:C; [|auto]. destruct u; auto.
  inv_bind H. destruct a as [u r']. apply pop_between in E as [C' B'].
  rewrite C in C'. injection C' as <-.
  inv_bind H. destruct a as [j r'']. injection H as <- <-.
  apply IH in E as (ts & J & B'').
  exists (t :: THyphen :: ts). split; [now constructor|].
  exact (between_trans _ _ _ [_] (_ :: _) B (between_trans _ _ _ [_] _ B' B'')).
Qed.
Lemma more_parts_sound f : forall p is q, more_parts f p = Ok (is, q) ->
  exists ts, more_tok ts is /\ between p q ts.
Proof.
  induction f as [|f IH]; intros p is q H; [discriminate|]. cbn [more_parts] in H.
  assert (Stop : Ok ([], p) = Ok (is, q) -> exists ts, more_tok ts is /\ between p q ts).
  { intros [= <- <-]. eauto using more_none, between_refl. }
  destruct (c1 p) as [u|] eqn:C; [|auto]. destruct u; auto.
  inv_bind H. destruct a as [u r]. apply pop_between in E as [C' B]. rewrite C in C'. injection C' as <-.
  inv_bind H. destruct a as [i r']. apply identifier_sound in E as (ts & I & B').
  inv_bind H. destruct a as [is' r'']. injection H as <- <-. apply IH in E as (us & M & B'').
  exists (TDot :: ts ++ us). split; [now constructor|].
  exact (between_trans _ _ _ [_] _ B (between_trans _ _ _ _ _ B' B'')).
Qed.
Lemma pre_sound f p is q : pre_ f p = Ok (is, q) -> exists ts, pre_tok ts is /\ between p q ts.
Proof.
  unfold pre_. intros H.
  assert (Stop : Ok ([], p) = Ok (is, q) -> exists ts, pre_tok ts is /\ between p q ts).
  { intros [= <- <-]. eauto using pre_none, between_refl. }
  destruct (c1 p) as [u|] eqn:C; [|auto]. destruct u; auto.
  inv_bind H. destruct a as [u r]. apply pop_between in E as [C' B]. rewrite C in C'. injection C' as <-.
  unfold parts in H. inv_bind H. destruct a as [i r']. apply identifier_sound in E as (ts & I & B').
  inv_bind H. destruct a as [is' r'']. injection H as <- <-. apply more_parts_sound in E as (us & M & B'').
  exists (THyphen :: ts ++ us). split; [now constructor|].
  exact (between_trans _ _ _ [_] _ B (between_trans _ _ _ _ _ B' B'')).
Qed.
Lemma build_loop_sound f : forall buffer p b q, sane p -> build_loop f buffer p = Ok (b, q) ->
  exists ts b', b = (buffer ++ b')%list /\ build_tok ts b' /\ between p q ts /\ at_ q [].
Proof.
  induction f as [|f IH]; intros buffer p b q S H; [discriminate|]. cbn [build_loop] in H.
  destruct (c1 p) as [u|] eqn:C.
  - inv_bind H. destruct a as [t r]. apply pop_between in E as [C' B]. rewrite C in C'. injection C' as <-.
    assert (T : build_token u /\ build_loop f (buffer ++ token_text u) r = Ok (b, q)).
    { destruct u; try discriminate H; (split; [exact I|exact H]). }
    destruct T as [T H']. apply IH in H' as (ts & b' & -> & [F ->] & B' & Q); [|apply B; auto].
    exists (u :: ts), (token_text u ++ List.concat (map token_text ts))%list.
    rewrite app_assoc. split; auto. split; [split; [now constructor|reflexivity]|]. split; auto.
    exact (between_trans _ _ _ [_] _ B B').
  - rewrite (S C) in H. simpl in H. injection H as <- <-.
    exists [], []. rewrite app_nil_r. split; auto. split; [split; [constructor|reflexivity]|].
    split; [|split; reflexivity].
    split; [intros _ _; reflexivity|]. intros us U. destruct us; [|destruct U; discriminate].
    split; auto.
Qed.
Lemma plus_build_sound f p b q : sane p -> plus_build_metadata f p = Ok (b, q) ->
  exists ts, build_opt_tok ts b /\ between p q ts /\ (b <> None -> at_ q []).
Proof.
  unfold plus_build_metadata. intros S H.
  assert (Stop : Ok (None, p) = Ok (b, q) ->
    exists ts, build_opt_tok ts b /\ between p q ts /\ (b <> None -> at_ q [])).
  { intros [= <- <-]. exists []. split; [constructor|]. split; [apply between_refl|congruence]. }
  destruct (c1 p) as [u|] eqn:C; [|auto]. destruct u; auto.
  inv_bind H. destruct a as [u r]. apply pop_between in E as [C' B]. rewrite C in C'. injection C' as <-.
  inv_bind H. destruct a as [b' r']. apply build_loop_sound in E as (ts & b'' & E & T & B' & Q); [|apply B; auto].
  simpl in E. subst b''. destruct b' as [|x b']; [discriminate|]. injection H as <- <-.
  exists (TPlus :: ts). split; [constructor; auto; discriminate|]. split; auto.
  exact (between_trans _ _ _ [_] _ B B').
Qed.

Lemma version_sound f p v q : sane p -> version_ f p = Ok (v, q) ->
  exists w1 ts w2, ws_tok w1 /\ core_tok ts v /\ ws_tok w2 /\ between p q (w1 ++ ts ++ w2)
    /\ (build v <> None -> w2 = []).
Proof.
  intros S H. unfold version_ in H.
  inv_bind H. rename a into p1. apply skip_whitespace_sound in E as (w1 & W1 & B1).
  inv_bind H. destruct a as [ma p2]. apply numeric_sound in E as B2.
  inv_bind H. destruct a as [mi p3].
  assert (E3 : dot_numeric p2 = Ok (mi, p3)) by (destruct (dot_numeric p2); [exact E0|discriminate]).
  apply dot_numeric_sound in E3 as B3.
  inv_bind H. destruct a as [pa p4].
  assert (E4 : dot_numeric p3 = Ok (pa, p4)) by (destruct (dot_numeric p3); [exact E1|discriminate]).
  apply dot_numeric_sound in E4 as B4.
  inv_bind H. destruct a as [pr p5]. apply pre_sound in E2 as (ps & P & B5).
  inv_bind H. destruct a as [bu p6].
  assert (S5 : sane p5) by (apply B5, B4, B3, B2, B1, S).
  apply plus_build_sound in E2 as (bs & Bt & B6 & Q6); auto.
  inv_bind H. injection H as <- <-. rename a into p7.
  assert (exists w2, ws_tok w2 /\ between p6 p7 w2 /\ (bu <> None -> w2 = [])) as (w2 & W2 & B7 & Q7).
  { destruct bu as [b|].
    - destruct (Q6 ltac:(discriminate)) as [C _]. unfold skip_whitespace in E2. rewrite C in E2.
      injection E2 as <-. exists []. split; [constructor|]. split; [apply between_refl|auto].
    - apply skip_whitespace_sound in E2 as (w2 & W2 & B7). exists w2. split; auto. split; auto. congruence. }
  exists w1, ([TNumeric ma; TDot; TNumeric mi; TDot; TNumeric pa] ++ ps ++ bs)%list, w2.
  split; auto. split; [now constructor|]. split; auto. split; auto.
  replace (w1 ++ ([TNumeric ma; TDot; TNumeric mi; TDot; TNumeric pa] ++ ps ++ bs) ++ w2)%list
    with (w1 ++ [TNumeric ma] ++ [TDot; TNumeric mi] ++ [TDot; TNumeric pa] ++ ps ++ bs ++ w2)%list
    by (simpl; rewrite <- !app_assoc; reflexivity).
  repeat (eapply between_trans; [eassumption|]). exact B7.
Qed.

Definition texts (ts : list token) : text := List.concat (map token_text ts).
Lemma texts_app a b : texts (a ++ b) = (texts a ++ texts b)%list.
Proof. unfold texts. now rewrite map_app, concat_app. Qed.
Lemma lexes_texts s ts : lexes s ts -> s = texts ts /\ Forall lexable ts.
Proof. induction 1 as [|t s ts L F Ls [-> IH]]; [split; [reflexivity|constructor]|]. split; [reflexivity|now constructor]. Qed.

Lemma parse_sound_tokens s v : parse s = Ok v ->
  exists w1 ts w2, ws_tok w1 /\ core_tok ts v /\ ws_tok w2 /\ lexes s (w1 ++ ts ++ w2)
    /\ (build v <> None -> w2 = []).
Proof.
  unfold parse, parser_new. intros H.
  inv_bind H. rename a into p. pose proof (advance_sane _ _ E) as S.
  inv_bind H. destruct a as [v' q]. apply version_sound in E0 as (w1 & ts & w2 & W1 & T & W2 & [S' B] & Q); auto.
  unfold finish in H. destruct (is_eof q) eqn:EOF.
  2:{ destruct (tail_ok _ _); discriminate. }
  injection H as ->. exists w1, ts, w2.
  split; [exact W1|]. split; [exact T|]. split; [exact W2|]. split; [|exact Q].
  eapply advance_inv; eauto. rewrite <- (app_nil_r (w1 ++ ts ++ w2)). apply B.
  unfold is_eof in EOF. destruct (c1 q) eqn:C; [discriminate|]. split; [exact C|]. now apply S'.
Qed.

(** ** The text and legality of grammatical tokens *)
Lemma id_tok_text ts i : id_tok ts i -> texts ts = show_identifier i.
Proof.
  induction 1 as [s|n|t i ts j H1 IH1 H2 IH2]; unfold texts in *; simpl; try (now rewrite app_nil_r).
  simpl in IH1. rewrite app_nil_r in IH1. rewrite IH1, IH2.
  destruct i; simpl; now rewrite <- app_assoc.
Qed.
Lemma piece_legal t i : lexable t -> id_tok [t] i -> legal_piece (token_text t).
Proof.
  intros L H. inversion H; subst.
  - simpl in *. destruct L as [(A & B & C) D]. repeat split; auto; try apply C.
    intros P. apply classify_leading in P. congruence.
  - simpl in *. destruct (decimal_component n) as (A & B & C). repeat split; auto; try apply C.
    intros P. apply classify_leading in P.
    assert (classify (decimal n) = TNumeric n) by now apply classify_numeric. congruence.
Qed.
Lemma hyphen_in_decimal n a b : decimal n <> (a ++ str "-" ++ b)%list.
Proof.
  intros E. pose proof (decimal_digits n) as D. rewrite E in D. apply Forall_app in D as [_ D].
  inversion D. discriminate.
Qed.
Lemma id_tok_legal ts i : id_tok ts i -> Forall lexable ts -> legal_identifier i /\ hyphenated (show_identifier i).
Proof.
  induction 1 as [s|n|t i ts j H1 IH1 H2 IH2]; intros F.
  - inversion F as [|? ? L _]; subst. pose proof (piece_legal _ _ L (id_alpha s)) as P.
    simpl in *. split; [split|]; try now apply one_piece.
    intros n N ->. destruct L as [_ L].
    assert (classify (decimal n) = TNumeric n) by now apply classify_numeric. congruence.
  - inversion F as [|? ? L _]; subst. pose proof (piece_legal _ _ L (id_num n)) as P.
    simpl in *. split; auto. now apply one_piece.
  - inversion F as [|? ? L F']; subst. inversion F' as [|? ? _ F'']; subst.
    pose proof (piece_legal _ _ L H1) as P. destruct (IH2 F'') as [_ Hj].
    assert (E : show_identifier i = token_text t) by (rewrite <- (id_tok_text _ _ H1); unfold texts; simpl; apply app_nil_r).
    assert (X : concat (concat i (str "-")) (show_identifier j)
                = AlphaNumeric (token_text t ++ str "-" ++ show_identifier j)%list).
    { rewrite <- E. destruct i; simpl; now rewrite <- app_assoc. }
    rewrite X. simpl. split; [split|]; try (now apply more_pieces).
    intros n _ C. symmetry in C. exact (hyphen_in_decimal _ _ _ C).
Qed.

Lemma more_tok_text ts is : more_tok ts is ->
  texts ts = match is with [] => [] | _ => (str "." ++ show_dotted is)%list end.
Proof.
  induction 1 as [|ts i us is H1 H2 IH]; [reflexivity|].
  change (TDot :: ts ++ us)%list with ([TDot] ++ ts ++ us)%list.
  rewrite !texts_app, (id_tok_text _ _ H1), IH. destruct is; simpl; auto. now rewrite app_nil_r.
Qed.
Lemma more_tok_legal ts is : more_tok ts is -> Forall lexable ts -> Forall legal_identifier is.
Proof.
  induction 1 as [|ts i us is H1 H2 IH]; intros F; [constructor|].
  inversion F as [|? ? _ F']; subst. apply Forall_app in F' as [F1 F2]. constructor; auto.
  now apply (id_tok_legal ts i).
Qed.
Lemma pre_tok_text ts is : pre_tok ts is ->
  texts ts = match is with [] => [] | _ => (str "-" ++ show_dotted is)%list end.
Proof.
  destruct 1 as [|ts i us is H1 H2]; [reflexivity|].
  change (THyphen :: ts ++ us)%list with ([THyphen] ++ ts ++ us)%list.
  rewrite !texts_app, (id_tok_text _ _ H1), (more_tok_text _ _ H2). destruct is; simpl; auto. now rewrite app_nil_r.
Qed.
Lemma pre_tok_legal ts is : pre_tok ts is -> Forall lexable ts -> Forall legal_identifier is.
Proof.
  destruct 1 as [|ts i us is H1 H2]; intros F; [constructor|].
  inversion F as [|? ? _ F']; subst. apply Forall_app in F' as [F1 F2]. constructor.
  - now apply (id_tok_legal ts i).
  - eapply more_tok_legal; eauto.
Qed.
Lemma dotted_app w d : alphanumeric w -> not_keyword w -> dotted d -> head_is_not is_alphanumeric d ->
  dotted (w ++ d).
Proof.
  intros A K D H. destruct D as [s As Ks|s r As Ks D].
  - destruct s as [|c s]; [rewrite app_nil_r; now apply one_part|].
    inversion As; subst. simpl in H. congruence.
  - destruct s as [|c s].
    + simpl app at 2. now apply more_parts_.
    + inversion As; subst. simpl in H. congruence.
Qed.
Lemma head_is_not_app p a b : a <> [] -> (head_is_not p (a ++ b) <-> head_is_not p a).
Proof. destruct a; [congruence|]. reflexivity. Qed.
Lemma build_tok_dotted ts : forall r us, Forall build_token ts -> lexes r (ts ++ us) -> dotted (texts ts).
Proof.
  assert (Empty : dotted []) by (apply one_part; [constructor|split; reflexivity]).
  induction ts as [|t ts IH]; intros r us F L; [exact Empty|].
  inversion F as [|? ? T F']; subst. inversion L as [|? r' ? Lt Fo L']; subst.
  specialize (IH _ _ F' L').
  assert (H : match t with TDot => True | _ => head_is_not is_alphanumeric (texts ts) end).
  { destruct (lexes_texts _ _ L') as [E LL]. destruct ts as [|u ts]; [now destruct t|].
    rewrite texts_app in E. inversion LL; subst.
    assert (N : texts (u :: ts) <> []).
    { intros X. apply app_eq_nil in X as [X _]. now apply token_text_nonempty in X. }
    destruct t; try contradiction; auto; simpl in Fo; now rewrite head_is_not_app in Fo. }
  change (texts (t :: ts)) with (token_text t ++ texts ts)%list.
  destruct t; try contradiction.
  - change (dotted ([] ++ str "." ++ texts ts)). apply more_parts_; auto; [constructor|split; reflexivity].
  - simpl token_text. destruct (decimal_component n) as (C1 & C2 & C3). now apply dotted_app.
  - simpl in Lt |- *. destruct Lt as [(C1 & C2 & C3) _]. now apply dotted_app.
  - simpl in Lt |- *. destruct Lt as [(C1 & C2 & C3) _]. now apply dotted_app.
Qed.

Lemma ws_tok_blank ts : ws_tok ts -> Forall lexable ts -> blank (texts ts).
Proof.
  destruct 1; intros F; [constructor|]. inversion F; subst. unfold texts. simpl. rewrite app_nil_r.
  simpl in *. tauto.
Qed.

Lemma lexes_drop ts : forall r us, lexes r (ts ++ us) -> exists r', lexes r' us.
Proof. induction ts as [|t ts IH]; intros r us L; eauto. inversion L; subst. eauto. Qed.

Lemma core_tok_text ts v : core_tok ts v -> texts ts = show v.
Proof.
  destruct 1 as [a b c ps pr bs bu P B]. rewrite !texts_app, (pre_tok_text _ _ P).
  unfold show, is_pre. cbn [major minor patch pre build].
  change (texts [TNumeric a; TDot; TNumeric b; TDot; TNumeric c])
    with (decimal a ++ str "." ++ decimal b ++ str "." ++ decimal c ++ [])%list.
  rewrite app_nil_r, <- !app_assoc. do 5 f_equal.
  assert (E : texts bs = match bu with Some b => (str "+" ++ b)%list | None => [] end).
  { destruct B as [|bs b0 [_ ->] _]; reflexivity. }
  rewrite E. destruct pr; reflexivity.
Qed.

Lemma core_tok_legal ts v us r : core_tok ts v -> lexes r (ts ++ us) -> legal_version v.
Proof.
  intros T L. pose proof (lexes_texts _ _ L) as [_ F]. apply Forall_app in F as [F _].
  destruct T as [a b c ps pr bs bu P B].
  apply Forall_app in F as [F1 F]. apply Forall_app in F as [F2 F3].
  inversion F1 as [|? ? A1 X1]; subst. inversion X1 as [|? ? _ X2]; subst.
  inversion X2 as [|? ? A2 X3]; subst. inversion X3 as [|? ? _ X4]; subst. inversion X4 as [|? ? A3 _]; subst.
  repeat split; auto; simpl.
  - eapply pre_tok_legal; eauto.
  - destruct B as [|bs bb [Fb ->] N]; auto. split; auto.
    rewrite <- !app_assoc in L. apply lexes_drop in L as [r1 L]. apply lexes_drop in L as [r2 L].
    change ((TPlus :: bs) ++ us)%list with ([TPlus] ++ bs ++ us)%list in L.
    apply lexes_drop in L as [r3 L]. eapply build_tok_dotted; eauto.
Qed.

Theorem parse_sound s v : parse s = Ok v ->
  exists w1 w2, s = (w1 ++ show v ++ w2)%list /\ blank w1 /\ blank w2 /\ legal_version v
    /\ (build v <> None -> w2 = []).
Proof.
  intros H. apply parse_sound_tokens in H as (w1 & ts & w2 & W1 & T & W2 & L & Q).
  pose proof (lexes_texts _ _ L) as [E F].
  apply Forall_app in F as [F1 F]. apply Forall_app in F as [F2 F3].
  exists (texts w1), (texts w2). rewrite E, !texts_app, (core_tok_text _ _ T).
  split; auto. split; [now apply ws_tok_blank|]. split; [now apply ws_tok_blank|].
  split.
  - apply lexes_drop in L as [r L]. eapply core_tok_legal; eauto.
  - intros N. now rewrite (Q N).
Qed.

(** ** Completeness *)

(** [ts] is how [s] is lexed when the next character cannot continue a component. *)
Definition lexed (s : text) (ts : list token) : Prop :=
  forall r us, head_is_not is_alphanumeric r -> lexes r us -> lexes (s ++ r) (ts ++ us).
Lemma lexed_nil : lexed [] [].
Proof. intros r us _ L. exact L. Qed.
Lemma lexed_app a b ts us : lexed a ts -> lexed b us -> b <> [] -> head_is_not is_alphanumeric b ->
  lexed (a ++ b) (ts ++ us).
Proof.
  intros A B N H r vs Hr L. rewrite <- !app_assoc. apply A; [now apply head_is_not_app|]. now apply B.
Qed.
Lemma lexed_component w : component_text w -> lexed w [classify w].
Proof.
  intros C r us H L. simpl. rewrite <- (classify_text w) at 1.
  constructor; auto; [now apply classify_lexable|now apply follows_classify].
Qed.
Lemma lexed_symbol t s ts : lexable t -> (forall r, follows t r) -> lexed s ts ->
  lexed (token_text t ++ s) (t :: ts).
Proof. intros L F S r us H Lr. rewrite <- app_assoc. simpl. constructor; auto. Qed.
Lemma lexed_numeric n : n < 2 ^ 32 -> lexed (decimal n) [TNumeric n].
Proof.
  intros H. replace (TNumeric n) with (classify (decimal n)); [apply lexed_component, decimal_component|].
  now apply classify_numeric.
Qed.

Lemma piece_token s : legal_piece s -> exists i, id_tok [classify s] i /\ show_identifier i = s /\
  (forall n, n < 2 ^ 32 -> s <> decimal n) = (forall n, n < 2 ^ 32 -> s <> decimal n) /\
  (i = AlphaNumeric s \/ exists n, n < 2 ^ 32 /\ s = decimal n /\ i = Numeric n).
Proof.
  intros (NE & A & K & P). destruct (classify_cases s) as [[n E]|[E|E]]; rewrite E.
  - apply classify_numeric in E as [-> L]. exists (Numeric n). repeat split; auto; [constructor|eauto].
  - apply classify_leading in E. contradiction.
  - exists (AlphaNumeric s). repeat split; auto. constructor.
Qed.

Lemma hyphenated_tokens s : hyphenated s -> exists ts i, id_tok ts i /\ show_identifier i = s /\ lexed s ts
  /\ (i = AlphaNumeric s \/ exists n, n < 2 ^ 32 /\ s = decimal n).
Proof.
  induction 1 as [s P|s r P H IH].
  - destruct (piece_token s P) as (i & T & E & _ & C). destruct P as (NE & A & K & _).
    exists [classify s], i. split; auto. split; auto. split.
    + apply lexed_component. repeat split; auto; apply K.
    + destruct C as [C|(n & L & -> & _)]; eauto.
  - destruct IH as (ts & j & T & Ej & L & _). destruct (piece_token s P) as (i & Ti & Ei & _ & _).
    destruct P as (NE & A & K & _).
    exists (classify s :: THyphen :: ts), (concat (concat i (str "-")) (show_identifier j)).
    assert (X : concat (concat i (str "-")) (show_identifier j) = AlphaNumeric (s ++ str "-" ++ r)%list).
    { rewrite Ej. destruct i; simpl in *; rewrite Ei, <- app_assoc; reflexivity. }
    split; [now constructor|]. rewrite X. split; [reflexivity|]. split; [|auto].
    apply (lexed_app s _ [_] (_ :: _)).
    + apply lexed_component. repeat split; auto; apply K.
    + apply (lexed_symbol THyphen); simpl; auto.
    + discriminate.
    + reflexivity.
Qed.

Lemma identifier_tokens i : legal_identifier i -> exists ts, id_tok ts i /\ lexed (show_identifier i) ts.
Proof.
  destruct i as [n|s]; simpl.
  - intros L. exists [TNumeric n]. split; [constructor|now apply lexed_numeric].
  - intros [H N]. destruct (hyphenated_tokens s H) as (ts & i & T & E & L & [->|(n & Ln & En)]); eauto.
    exfalso. exact (N n Ln En).
Qed.

Lemma more_tokens is : Forall legal_identifier is ->
  exists ts, more_tok ts is /\ lexed (match is with [] => [] | _ => str "." ++ show_dotted is end) ts.
Proof.
  induction 1 as [|i is H _ IH]; [exists []; split; [constructor|apply lexed_nil]|].
  destruct IH as (ts & T & L). destruct (identifier_tokens i H) as (us & U & Lu).
  exists (TDot :: us ++ ts). split; [now constructor|].
  apply (lexed_symbol TDot); simpl; auto.
  destruct is as [|j is].
  - inversion T; subst. now rewrite app_nil_r.
  - change (lexed (show_identifier i ++ (str "." ++ show_dotted (j :: is))) (us ++ ts)).
    apply lexed_app; auto; [discriminate|reflexivity].
Qed.

Lemma pre_tokens is : Forall legal_identifier is ->
  exists ts, pre_tok ts is /\ lexed (match is with [] => [] | _ => str "-" ++ show_dotted is end) ts.
Proof.
  destruct 1 as [|i is H F]; [exists []; split; [constructor|apply lexed_nil]|].
  destruct (more_tokens is F) as (ts & T & L). destruct (identifier_tokens i H) as (us & U & Lu).
  exists (THyphen :: us ++ ts). split; [now constructor|].
  apply (lexed_symbol THyphen); simpl; auto.
  destruct is as [|j is].
  - inversion T; subst. now rewrite app_nil_r.
  - change (lexed (show_identifier i ++ (str "." ++ show_dotted (j :: is))) (us ++ ts)).
    apply lexed_app; auto; [discriminate|reflexivity].
Qed.

Lemma build_tokens b : dotted b -> exists ts, build_tok ts b /\ lexed b ts.
Proof.
  assert (One : forall s, alphanumeric s -> not_keyword s ->
    exists ts, build_tok ts s /\ lexed s ts).
  { intros s A K. destruct s as [|c s].
    - exists []. split; [split; [constructor|reflexivity]|apply lexed_nil].
    - assert (C : component_text (c :: s)) by (repeat split; auto; try apply K; discriminate).
      exists [classify (c :: s)]. split; [|now apply lexed_component].
      split; [|cbn [map List.concat]; now rewrite classify_text, app_nil_r].
      constructor; [|constructor]. destruct (classify_cases (c :: s)) as [[n E]|[E|E]]; rewrite E; exact I. }
  induction 1 as [s A K|s r A K D IH]; [auto|].
  destruct IH as (ts & [F E] & L). destruct (One s A K) as (us & [Fu Eu] & Lu).
  exists (us ++ TDot :: ts)%list. split; [split|].
  - apply Forall_app. split; auto. constructor; simpl; auto.
  - rewrite map_app, concat_app. simpl. now rewrite <- E, <- Eu.
  - apply lexed_app; auto; [|discriminate|reflexivity]. apply (lexed_symbol TDot); simpl; auto.
Qed.

Lemma core_tokens v : legal_version v -> exists ts, core_tok ts v /\ lexed (show v) ts.
Proof.
  intros (A & B & C & P & D).
  destruct (pre_tokens _ P) as (ps & Tp & Lp).
  assert (exists bs, build_opt_tok bs (build v) /\
    lexed (match build v with Some b => str "+" ++ b | None => [] end) bs) as (bs & Tb & Lb).
  { destruct (build v) as [b|].
    - destruct D as [N D]. destruct (build_tokens b D) as (bs & T & L). exists (TPlus :: bs).
      split; [now constructor|]. apply (lexed_symbol TPlus); simpl; auto.
    - exists []. split; [constructor|apply lexed_nil]. }
  exists ([TNumeric (major v); TDot; TNumeric (minor v); TDot; TNumeric (patch v)] ++ ps ++ bs)%list.
  split.
  - destruct v; simpl in *. now constructor.
  - intros r us H L.
    unfold show, is_pre. rewrite <- !app_assoc.
    assert (L1 : lexes ((match build v with Some b => str "+" ++ b | None => [] end) ++ r) (bs ++ us)) by auto.
    assert (H1 : head_is_not is_alphanumeric ((match build v with Some b => str "+" ++ b | None => [] end) ++ r)).
    { destruct (build v); [reflexivity|exact H]. }
    pose proof (Lp _ _ H1 L1) as L2.
    assert (H2 : head_is_not is_alphanumeric ((match pre v with [] => [] | _ => str "-" ++ show_dotted (pre v) end)
       ++ (match build v with Some b => str "+" ++ b | None => [] end) ++ r)).
    { destruct (pre v); [exact H1|reflexivity]. }
    replace ((if match pre v with [] => false | _ => true end then str "-" ++ show_dotted (pre v) else []))%list
      with (match pre v with [] => [] | _ => str "-" ++ show_dotted (pre v) end)%list by (destruct (pre v); reflexivity).
    apply (lexed_numeric _ A _ (TDot :: _)); [reflexivity|].
    apply (lexes_token TDot); simpl; auto.
    apply (lexed_numeric _ B _ (TDot :: _)); [reflexivity|].
    apply (lexes_token TDot); simpl; auto.
    apply (lexed_numeric _ C _ (ps ++ bs ++ us)); auto.
Qed.

Lemma blank_tokens w : blank w -> exists ts, ws_tok ts /\ texts ts = w /\
  forall r us, head_is_not is_whitespace r -> lexes r us -> lexes (w ++ r) (ts ++ us).
Proof.
  intros B. destruct w as [|c w].
  - exists []. split; [constructor|]. split; auto.
  - exists [TWhitespace (c :: w)]. split; [constructor|]. split; [unfold texts; simpl; now rewrite app_nil_r|].
    intros r us H L. apply (lexes_token (TWhitespace (c :: w))); simpl; auto. split; [discriminate|exact B].
Qed.

(** The parser functions on tokens obeying the grammar. *)
Definition not_start (us : list token) (t : token) : Prop := match us with u :: _ => u <> t | [] => True end.

Lemma at_c1 p ts : at_ p ts -> c1 p = hd_error ts.
Proof. destruct ts; intros [C _]; exact C. Qed.

Lemma skip_at p w us : ws_tok w -> at_ p (w ++ us) -> (forall s, not_start us (TWhitespace s)) ->
  exists q, skip_whitespace p = Ok q /\ at_ q us.
Proof.
  intros W A N. unfold skip_whitespace. rewrite (at_c1 _ _ A). destruct W; simpl in *.
  - exists p. split; auto. destruct us as [|u us]; auto. destruct u; auto. now specialize (N s).
  - destruct (pop_at _ _ _ A) as (q & E & Q). rewrite E. simpl. eauto.
Qed.
Lemma numeric_at p n us : at_ p (TNumeric n :: us) -> exists q, numeric p = Ok (n, q) /\ at_ q us.
Proof. intros A. destruct (pop_at _ _ _ A) as (q & E & Q). unfold numeric. rewrite E. simpl. eauto. Qed.
Lemma dot_numeric_at p n us : at_ p (TDot :: TNumeric n :: us) ->
  exists q, dot_numeric p = Ok (n, q) /\ at_ q us.
Proof.
  intros A. destruct (pop_at _ _ _ A) as (q & E & Q). unfold dot_numeric, dot. rewrite E. simpl.
  now apply numeric_at.
Qed.
Lemma identifier_at ts i : id_tok ts i -> forall f p us, (length ts <= f)%nat ->
  at_ p (ts ++ us) -> not_start us THyphen ->
  exists q, identifier_ f p = Ok (i, q) /\ at_ q us.
Proof.
  assert (Base : forall t i f p us, id_tok [t] i -> (1 <= f)%nat -> at_ p (t :: us) ->
    exists q, pop p = Ok (t, q) /\ at_ q us /\
      (match t with
        | TAlphaNumeric s => Ok (AlphaNumeric s)
        | TNumeric n => Ok (Numeric n)
        | t => Err (UnexpectedToken t)
        end) = Ok i).
  { intros t i0 f p us T L A. destruct (pop_at _ _ _ A) as (q & E & Q). exists q. split; auto. split; auto.
    inversion T; subst; reflexivity. }
  assert (Single : forall t i f p us, id_tok [t] i -> (1 <= f)%nat -> at_ p (t :: us) -> not_start us THyphen ->
     exists q, identifier_ f p = Ok (i, q) /\ at_ q us).
  { intros t i0 f p us T L A N. destruct f as [|f]; [lia|]. destruct (Base t i0 _ p us T L A) as (q & E & Q & R).
    exists q. split; auto. cbn [identifier_]. rewrite E. cbn [bind]. rewrite R. cbn [bind].
    rewrite (at_c1 _ _ Q). destruct us as [|u us]; simpl; auto. destruct u; auto. now destruct N. }
  induction 1 as [s|n|t i ts j H1 IH1 H2 IH2]; intros f p us L A N.
  - eapply Single; eauto. constructor.
  - eapply Single; eauto. constructor.
  - destruct f as [|f]; [simpl in L; lia|].
    destruct (Base t i (S f) p _ H1 ltac:(lia) A) as (q & E & Q & R).
    cbn [identifier_]. rewrite E. cbn [bind]. rewrite R. cbn [bind]. rewrite (at_c1 _ _ Q). simpl hd_error. cbv iota.
    destruct (pop_at _ _ _ Q) as (q' & E' & Q'). rewrite E'. cbn [bind].
    destruct (IH2 f q' us) as (q'' & E'' & Q''); auto; [simpl in L; lia|].
    rewrite E''. cbn [bind]. eauto.
Qed.
Lemma more_at ts is : more_tok ts is -> forall f p us, (length ts < f)%nat ->
  at_ p (ts ++ us) -> not_start us THyphen -> not_start us TDot ->
  exists q, more_parts f p = Ok (is, q) /\ at_ q us.
Proof.
  induction 1 as [|ts i vs is H1 H2 IH]; intros f p us L A N1 N2; (destruct f as [|f]; [simpl in L; lia|]); cbn [more_parts].
  - rewrite (at_c1 _ _ A). simpl in A |- *. destruct us as [|u us]; simpl; eauto. destruct u; simpl; eauto. now destruct N2.
  - rewrite (at_c1 _ _ A). simpl hd_error. cbv iota. simpl in L. rewrite app_length in L.
    assert (X : ((TDot :: ts ++ vs) ++ us = TDot :: (ts ++ vs ++ us))%list) by (simpl; now rewrite app_assoc).
    rewrite X in A. clear X.
    destruct (pop_at _ _ _ A) as (q & E & Q). rewrite E. cbn [bind].
    destruct (identifier_at ts i H1 f q (vs ++ us)) as (q' & E' & Q'); auto; [lia| |].
    { inversion H2; subst; simpl; auto. discriminate. }
    rewrite E'. cbn [bind].
    destruct (IH f q' us) as (q'' & E'' & Q''); auto; [lia|]. rewrite E''. simpl. eauto.
Qed.
Lemma pre_at ts is : pre_tok ts is -> forall f p us, (length ts < f)%nat ->
  at_ p (ts ++ us) -> not_start us THyphen -> not_start us TDot ->
  exists q, pre_ f p = Ok (is, q) /\ at_ q us.
Proof.
  destruct 1 as [|ts i vs is H1 H2]; intros f p us L A N1 N2; unfold pre_.
  - rewrite (at_c1 _ _ A). simpl in A |- *. destruct us as [|u us]; simpl; eauto. destruct u; simpl; eauto. now destruct N1.
  - rewrite (at_c1 _ _ A). simpl hd_error. cbv iota. simpl in L. rewrite app_length in L.
    assert (X : ((THyphen :: ts ++ vs) ++ us = THyphen :: (ts ++ vs ++ us))%list) by (simpl; now rewrite app_assoc).
    rewrite X in A. clear X.
    destruct (pop_at _ _ _ A) as (q & E & Q). rewrite E. cbn [bind].
    unfold parts.
    destruct (identifier_at ts i H1 f q (vs ++ us)) as (q' & E' & Q'); auto; [lia| |].
    { inversion H2; subst; simpl; auto. discriminate. }
    rewrite E'. cbn [bind].
    destruct (more_at vs is H2 f q' us) as (q'' & E'' & Q''); auto; [lia|]. rewrite E''. simpl. eauto.
Qed.
Lemma build_loop_at ts : Forall build_token ts -> forall f buffer p, (length ts < f)%nat -> at_ p ts ->
  exists q, build_loop f buffer p = Ok (buffer ++ texts ts, q)%list /\ at_ q [].
Proof.
  induction 1 as [|t ts T _ IH]; intros f buffer p L A; (destruct f as [|f]; [simpl in L; lia|]); cbn [build_loop].
  - destruct A as [C I]. rewrite C, I. simpl. unfold texts; simpl. rewrite app_nil_r.
    eexists; split; [reflexivity|]. split; reflexivity.
  - rewrite (at_c1 _ _ A). simpl hd_error. cbv iota.
    destruct (pop_at _ _ _ A) as (q & E & Q). rewrite E. cbn [bind]. simpl in L.
    destruct (IH f (buffer ++ token_text t)%list q) as (q' & E' & Q'); auto; [lia|].
    exists q'. split; auto. rewrite <- app_assoc in E'.
    destruct t; try contradiction; exact E'.
Qed.
Lemma build_at ts b : build_opt_tok ts b -> forall f p us, (length ts < f)%nat ->
  at_ p (ts ++ us) -> not_start us TPlus -> (b <> None -> us = []) ->
  exists q, plus_build_metadata f p = Ok (b, q) /\ at_ q us.
Proof.
  destruct 1 as [|ts b [F ->] N]; intros f p us L A NS U; unfold plus_build_metadata.
  - rewrite (at_c1 _ _ A). simpl in A |- *. destruct us as [|u us]; simpl; eauto. destruct u; simpl; eauto. now destruct NS.
  - rewrite (at_c1 _ _ A). simpl hd_error. cbv iota. simpl in L.
    rewrite (U ltac:(discriminate)) in *. rewrite app_nil_r in A.
    destruct (pop_at _ _ _ A) as (q & E & Q). rewrite E. cbn [bind].
    destruct (build_loop_at ts F f [] q) as (q' & E' & Q'); auto; [lia|].
    rewrite E'. cbn [bind]. simpl app. fold (texts ts) in *.
    destruct (texts ts); [congruence|]. eauto.
Qed.

(** What can come after a version. *)
Definition ends (us : list token) : Prop :=
  match us with [] | TWhitespace _ :: _ => True | _ => False end.

Lemma version_at w1 ts v w2 us : ws_tok w1 -> core_tok ts v -> ws_tok w2 ->
  (build v <> None -> w2 ++ us = [])%list -> ends (w2 ++ us) -> (forall s, not_start us (TWhitespace s)) ->
  forall f p, (length ts < f)%nat -> at_ p (w1 ++ ts ++ w2 ++ us) ->
  exists q, version_ f p = Ok (v, q) /\ at_ q us.
Proof.
  intros W1 T W2 B En Nw f p L A. unfold version_.
  assert (N : forall t, (forall s, t <> TWhitespace s) -> not_start (w2 ++ us) t).
  { intros t Ht. destruct (w2 ++ us)%list as [|u vs]; simpl; auto. destruct u; try contradiction.
    intros <-. exact (Ht s eq_refl). }
  destruct T as [a b c ps pr bs bu P Bu]. simpl in B.
  rewrite !app_length in L. simpl in L.
  edestruct (skip_at p w1) as (p1 & E1 & A1); [eassumption|exact A|simpl; discriminate|].
  rewrite E1. cbn [bind]. clear E1 A.
  rewrite <- !app_assoc in A1. simpl in A1.
  destruct (numeric_at _ _ _ A1) as (p2 & E2 & A2). rewrite E2. cbn [bind].
  destruct (dot_numeric_at _ _ _ A2) as (p3 & E3 & A3). rewrite E3. cbn [bind map_err].
  destruct (dot_numeric_at _ _ _ A3) as (p4 & E4 & A4). rewrite E4. cbn [bind map_err].
  destruct (pre_at ps pr P f p4 (bs ++ w2 ++ us)) as (p5 & E5 & A5); auto; [lia| | |].
  { destruct Bu; simpl; [apply N; discriminate|discriminate]. }
  { destruct Bu; simpl; [apply N; discriminate|discriminate]. }
  rewrite E5. cbn [bind].
  destruct (build_at bs bu Bu f p5 (w2 ++ us)) as (p6 & E6 & A6); auto; [lia|apply N; discriminate|].
  rewrite E6. cbn [bind].
  destruct (skip_at p6 w2 us W2 A6 Nw) as (p7 & E7 & A7). rewrite E7. cbn [bind]. eauto.
Qed.

Lemma lexes_length s ts : lexes s ts -> (length ts <= length s)%nat.
Proof.
  induction 1 as [|t s ts L F Ls IH]; simpl; auto. rewrite app_length.
  pose proof (token_text_nonempty t L). destruct (token_text t); [congruence|]. simpl. lia.
Qed.

Lemma ws_head w2 : blank w2 -> head_is_not is_alphanumeric w2.
Proof.
  destruct 1 as [|c w H _]; simpl; auto. unfold is_whitespace in H.
  destruct (N.eqb_spec c 32) as [->|]; [reflexivity|]. destruct (N.eqb_spec c 9) as [->|]; [reflexivity|].
  destruct (N.eqb_spec c 10) as [->|]; [reflexivity|]. destruct (N.eqb_spec c 13) as [->|]; [reflexivity|].
  discriminate.
Qed.
Lemma digit_not_blank c : is_digit c = true -> is_whitespace c = false.
Proof.
  unfold is_whitespace. intros H.
  destruct (N.eqb_spec c 32) as [->|]; [discriminate|]. destruct (N.eqb_spec c 9) as [->|]; [discriminate|].
  destruct (N.eqb_spec c 10) as [->|]; [discriminate|]. destruct (N.eqb_spec c 13) as [->|]; [discriminate|].
  reflexivity.
Qed.
Lemma decimal_head n r : head_is_not is_whitespace (decimal n ++ r).
Proof.
  destruct (decimal_first n) as (c & q & E & _). rewrite E. simpl. apply digit_not_blank.
  pose proof (decimal_digits n) as D. rewrite E in D. now inversion D.
Qed.

Theorem parse_complete v w1 w2 : blank w1 -> blank w2 -> legal_version v -> (build v <> None -> w2 = []) ->
  parse (w1 ++ show v ++ w2) = Ok v.
Proof.
  intros B1 B2 Lv Q.
  destruct (core_tokens v Lv) as (ts & T & L).
  destruct (blank_tokens w1 B1) as (t1 & T1 & X1 & L1). destruct (blank_tokens w2 B2) as (t2 & T2 & X2 & L2).
  assert (L2' : lexes w2 t2).
  { specialize (L2 [] [] I lexes_end). now rewrite !app_nil_r in L2. }
  assert (LL : lexes (w1 ++ show v ++ w2) (t1 ++ ts ++ t2)).
  { apply L1; [|apply L; auto; now apply ws_head]. unfold show. rewrite <- !app_assoc. apply decimal_head. }
  unfold parse, parser_new.
  destruct (advance_lexes _ _ LL) as (p & E & A). rewrite E. cbn [bind].
  destruct (version_at t1 ts v t2 [] T1 T T2) with (f := fuel_for (w1 ++ show v ++ w2)) (p := p) as (q & E' & Q').
  - intros N. specialize (Q N). subst w2. rewrite app_nil_r. inversion T2; subst; auto.
    exfalso. destruct (lexes_texts _ _ L2') as [_ F]. inversion F as [|? ? Lw _]; subst.
    unfold texts in X2. simpl in X2. rewrite app_nil_r in X2. subst. now destruct Lw.
  - rewrite app_nil_r. destruct T2; simpl; auto.
  - simpl; auto.
  - pose proof (lexes_length _ _ LL) as Len. rewrite !app_length in Len. unfold fuel_for. rewrite !app_length. lia.
  - now rewrite app_nil_r.
  - rewrite E'. cbn [bind]. unfold finish, is_eof. destruct Q' as [-> _]. reflexivity.
Qed.
