(** Proofs about the options of bit array segments. *)
From Coq Require Import ZArith NArith Bool List Lia.
From Verif Require Import Text SegmentOptions SegmentOptionsSpec.
Import ListNotations.

Definition cat_eqb (a b : category) : bool :=
  match a, b with
  | TypeCategory, TypeCategory | SignednessCategory, SignednessCategory
  | EndiannessCategory, EndiannessCategory | UnitCategory, UnitCategory | SizeCategory, SizeCategory => true
  | _, _ => false
  end.
Lemma cat_eqb_iff a b : cat_eqb a b = true <-> a = b.
Proof. destruct a, b; cbn; split; congruence. Qed.

Definition slot (c : categories) (k : category) : option segment_option :=
  match k with
  | TypeCategory => type_ c
  | SignednessCategory => signed c
  | EndiannessCategory => endian c
  | UnitCategory => unit c
  | SizeCategory => size c
  end.

(** [c] holds the options of [os], which repeat nothing. *)
Definition represents (os : list segment_option) (c : categories) : Prop :=
  (forall k o, slot c k = Some o <-> In o os /\ category_of (what o) = k) /\
  (forall k p o, ~ repeats os k p o).

Lemma in_repeats os p o : In p os -> repeats (os ++ [o]) (category_of (what o)) p o \/ category_of (what p) <> category_of (what o).
Proof.
  intros I. assert ({category_of (what p) = category_of (what o)} + {category_of (what p) <> category_of (what o)}) as [E|N] by decide equality.
  - left. apply In_nth_error in I. destruct I as [i I]. exists i, (length os).
    assert (i < length os) by (apply nth_error_Some; congruence).
    split; [assumption|]. rewrite nth_error_app1, nth_error_app2, Nat.sub_diag by lia. auto.
  - now right.
Qed.

Lemma repeats_snoc os o k p q : (forall k p o, ~ repeats os k p o) ->
  (forall p, In p os -> category_of (what p) <> category_of (what o)) -> ~ repeats (os ++ [o]) k p q.
Proof.
  intros R N (i & j & L & I & J & C & D).
  assert (i < length (os ++ [o]) /\ j < length (os ++ [o])) as [Li Lj] by (split; apply nth_error_Some; congruence).
  rewrite app_length in Li, Lj. cbn in Li, Lj.
  destruct (Nat.eq_dec j (length os)) as [->|NE].
  - rewrite nth_error_app1 in I by lia. rewrite nth_error_app2, Nat.sub_diag in J by lia. injection J as <-.
    apply (N p); [now apply nth_error_In in I|congruence].
  - rewrite nth_error_app1 in I, J by lia. apply (R k p q). now exists i, j.
Qed.

Lemma repeats_app os os' k p q : repeats os k p q -> repeats (os ++ os') k p q.
Proof.
  intros (i & j & L & I & J & C & D). exists i, j. split; [assumption|].
  rewrite !nth_error_app1; [auto|apply nth_error_Some; congruence..].
Qed.

(** Adding an option to an empty slot. *)
Definition put (c : categories) (k : category) (o : segment_option) : categories :=
  match k with
  | TypeCategory => Categories (Some o) (signed c) (endian c) (unit c) (size c)
  | SignednessCategory => Categories (type_ c) (Some o) (endian c) (unit c) (size c)
  | EndiannessCategory => Categories (type_ c) (signed c) (Some o) (unit c) (size c)
  | UnitCategory => Categories (type_ c) (signed c) (endian c) (Some o) (size c)
  | SizeCategory => Categories (type_ c) (signed c) (endian c) (unit c) (Some o)
  end.
Lemma slot_put c k o k' : slot (put c k o) k' = if cat_eqb k k' then Some o else slot c k'.
Proof. destruct k, k'; reflexivity. Qed.

Lemma represents_put os c o : represents os c -> slot c (category_of (what o)) = None ->
  represents (os ++ [o]) (put c (category_of (what o)) o).
Proof.
  intros [R U] E. split.
  - intros k p. rewrite slot_put, in_app_iff. cbn. destruct (cat_eqb (category_of (what o)) k) eqn:K.
    + apply cat_eqb_iff in K. subst k. split.
      * intros [= <-]. auto.
      * intros [[I|[I|[]]] C]; [|congruence]. assert (slot c (category_of (what o)) = Some p) by (apply R; auto). congruence.
    + rewrite R. split; [tauto|]. intros [[I|[<-|[]]] C]; [tauto|]. apply cat_eqb_iff in C. congruence.
  - intros k p q. apply repeats_snoc; [assumption|]. intros p' I C. assert (slot c (category_of (what o)) = Some p') by (apply R; auto). congruence.
Qed.

(** The errors of the loop. *)
Definition unsupported_error (m : mode) (t : target) (k : option_kind) : option error_type :=
  match k, m, t with
  | (Utf8Codepoint | Utf16Codepoint | Utf32Codepoint), Pattern, JavaScript =>
      Some (OptionNotSupportedForTarget t UtfCodepointPattern)
  | Native, _, JavaScript => Some (OptionNotSupportedForTarget t NativeEndianness)
  | _, _, _ => None
  end.
Definition conflict (k : category) (p : segment_option) : error_type :=
  match k with
  | TypeCategory => ConflictingTypeOptions (label p)
  | SignednessCategory => ConflictingSignednessOptions (label p)
  | EndiannessCategory => ConflictingEndiannessOptions (label p)
  | UnitCategory => ConflictingUnitOptions
  | SizeCategory => ConflictingSizeOptions
  end.

Lemma categorise_cons m t o os c :
  categorise m t (o :: os) c =
  match unsupported_error m t (what o) with
  | Some e => inr (e, location o)
  | None =>
      match slot c (category_of (what o)) with
      | Some p => inr (conflict (category_of (what o)) p, location o)
      | None => categorise m t os (put c (category_of (what o)) o)
      end
  end.
Proof. destruct o as [k l]; destruct k, m, t; reflexivity. Qed.

Lemma categorise_spec m t os : forall pre c, represents pre c ->
  match categorise m t os c with
  | inl c' => represents (pre ++ os) c' /\ (forall o, In o os -> unsupported_error m t (what o) = None)
  | inr (e, l) => exists before o after, os = before ++ o :: after /\ l = location o /\
      (unsupported_error m t (what o) = Some e \/
       exists p, repeats (pre ++ before ++ [o]) (category_of (what o)) p o /\ e = conflict (category_of (what o)) p)
  end.
Proof.
  induction os as [|o os IH]; intros pre c R; [cbn; rewrite app_nil_r; split; [assumption|intros o []]|].
  rewrite categorise_cons. destruct (unsupported_error m t (what o)) as [e|] eqn:U.
  { exists [], o, os. auto. }
  destruct (slot c (category_of (what o))) as [p|] eqn:S.
  - exists [], o, os. split; [reflexivity|]. split; [reflexivity|]. right. exists p. split; [|reflexivity].
    apply R in S. destruct S as [I C]. destruct (in_repeats pre p o I) as [K|K]; [exact K|congruence].
  - pose proof (represents_put _ _ _ R S) as R'. specialize (IH _ _ R').
    destruct (categorise m t os (put c (category_of (what o)) o)) as [c'|[e l]].
    + destruct IH as [IH N]. rewrite <- app_assoc in IH. split; [exact IH|]. intros o' [<-|I]; auto.
    + destruct IH as (before & q & after & -> & L & IH). exists (o :: before), q, after. split; [reflexivity|]. split; [assumption|].
      destruct IH as [IH|(p & IH & E)]; [now left|right]. exists p. split; [|assumption]. rewrite <- !app_assoc in IH. exact IH.
Qed.

Lemma represents_nil : represents [] (Categories None None None None None).
Proof.
  split; [intros k o; destruct k; cbn; (split; [discriminate|tauto])|].
  intros k p o (i & j & _ & I & _). destruct i; discriminate.
Qed.

(** What the options have, in terms of the slots. *)
Lemma has_slot os c k : represents os c -> (has os k <-> option_map what (slot c (category_of k)) = Some k).
Proof.
  intros [R _]. split.
  - intros (o & I & <-). assert (slot c (category_of (what o)) = Some o) as -> by (apply R; auto). reflexivity.
  - destruct (slot c (category_of k)) as [o|] eqn:S; [|discriminate]. intros [= <-]. apply R in S. exists o. tauto.
Qed.
Lemma has_category_slot os c k : represents os c -> (has_category os k <-> slot c k <> None).
Proof.
  intros [R _]. split.
  - intros (o & I & E). assert (slot c k = Some o) as -> by (apply R; auto). discriminate.
  - destruct (slot c k) as [o|] eqn:S; [|congruence]. intros _. apply R in S. exists o. tauto.
Qed.
Lemma slot_in os c k o : represents os c -> slot c k = Some o -> In o os /\ category_of (what o) = k.
Proof. intros [R _]. apply R. Qed.

(** Each check after the loop is one of the rules. *)
Section Checks.
  Context (os : list segment_option) (c : categories) (m : mode) (must : bool) (t : target) (R : represents os c).
  Local Notation kind k := (option_map what (slot c k)).

  Lemma kind_category k x : kind k = Some x -> category_of x = k.
  Proof using R. destruct (slot c k) as [o|] eqn:S; [|discriminate]. intros [= <-]. now apply (slot_in os c k o R). Qed.
  Lemma no_category k : slot c k = None -> ~ has_category os k.
  Proof using R. intros N H. apply (has_category_slot os c k R) in H. contradiction. Qed.
  Lemma some_category k o : slot c k = Some o -> has_category os k.
  Proof using R. intros N. apply (has_category_slot os c k R). congruence. Qed.
  Lemma some_has k o : slot c k = Some o -> has os (what o).
  Proof using R. intros S. exists o. split; [now apply (slot_in os c k o R)|reflexivity]. Qed.

  Ltac slots := repeat match goal with
    | |- context [slot c ?k] => let E := fresh "E" in destruct (slot c k) as [[[] ?]|] eqn:E; cbn in *
    end.

  Definition spec_of (chk : check) (rule : Prop) : Prop :=
    match chk with
    | None => rule
    | Some (e, l) => ~ rule /\ exists o, In o os /\ l = location o /\ blames os m must t e o
    end.
  Lemma spec_both chk a b : spec_of chk a -> (a <-> b) -> spec_of chk b.
  Proof using. unfold spec_of. destruct chk as [[e l]|]; intros S E; [|tauto]. destruct S as [N S]. split; [tauto|assumption]. Qed.

  Lemma value_check_spec : spec_of (value_check m c) ((m = Expression -> ~ has_category os SignednessCategory) /\ (m = Expression -> ~ has os Bytes)).
  Proof using R.
    unfold spec_of, value_check. destruct m; [|cbn; split; discriminate].
    destruct (signed c) as [o|] eqn:S.
    - cbn. pose proof (slot_in os c SignednessCategory o R S) as [I C]. split; [|exists o; split; [assumption|split; [reflexivity|constructor; auto]]].
      intros [N _]. apply (N eq_refl). exists o. auto.
    - pose proof (no_category SignednessCategory S) as N. destruct (type_ c) as [o|] eqn:T.
      + pose proof (slot_in os c TypeCategory o R T) as [I C]. destruct o as [k l]. cbn in C.
        assert (k <> Bytes -> ~ has os Bytes) as K.
        { intros NE H. rewrite (has_slot os c Bytes R) in H. cbn in H. rewrite T in H. cbn in H. congruence. }
        destruct k; try discriminate C; cbn; try (split; intros _; [assumption|apply K; discriminate]).
        split; [|eexists; split; [exact I|split; [reflexivity|constructor; auto]]]. intros [_ N']. apply (N' eq_refl). eexists. split; [exact I|reflexivity].
      + cbn. split; intros _; [assumption|]. intros H. rewrite (has_slot os c Bytes R) in H. cbn in H. rewrite T in H. discriminate.
  Qed.

  Lemma size_check_spec : spec_of (size_check must c)
    (forall k, must = true -> k = Bytes \/ k = Bits -> has os k -> has_category os SizeCategory).
  Proof using R.
    unfold spec_of, size_check. destruct must; [|cbn; intros; discriminate].
    destruct (size c) as [s|] eqn:S.
    { pose proof (some_category SizeCategory s S). destruct (type_ c) as [[[] ?]|]; cbn; auto. }
    pose proof (no_category SizeCategory S) as N. destruct (type_ c) as [o|] eqn:T.
    - pose proof (slot_in os c TypeCategory o R T) as [I C]. destruct o as [k l].
      assert (k <> Bytes -> k <> Bits -> forall k, true = true -> k = Bytes \/ k = Bits -> has os k -> has_category os SizeCategory) as K.
      { intros N1 N2 k' _ O H. rewrite (has_slot os c k' R) in H. destruct O as [->| ->]; cbn in H; rewrite T in H; cbn in H; congruence. }
      destruct k; try discriminate C; cbn; try (apply K; discriminate);
        (split; [|eexists; split; [exact I|split; [reflexivity|constructor; auto]]]); intros F; apply N.
      + apply (F Bytes); auto. eexists. split; [exact I|reflexivity].
      + apply (F Bits); auto. eexists. split; [exact I|reflexivity].
    - cbn. intros k _ O H. rewrite (has_slot os c k R) in H. destruct O as [->| ->]; cbn in H; rewrite T in H; discriminate.
  Qed.

  Lemma type_kind k : category_of k = TypeCategory -> has os k -> option_map what (type_ c) = Some k.
  Proof using R. intros C H. rewrite (has_slot os c k R), C in H. exact H. Qed.

  Lemma endian_check_spec : spec_of (endian_check c)
    (forall k, has_category os EndiannessCategory -> orderless k -> ~ has os k).
  Proof using R.
    unfold endian_check.
    assert (forall k0, option_map what (type_ c) = Some k0 -> ~ orderless k0 -> forall k, has_category os EndiannessCategory -> orderless k -> ~ has os k) as K.
    { intros k0 E N k _ O H. apply N. assert (option_map what (type_ c) = Some k) by (apply type_kind; [destruct O as [->|[->|[->| ->]]]; reflexivity|assumption]). congruence. }
    destruct (type_ c) as [o|] eqn:T; cbn [option_map] in *.
    - specialize (K _ eq_refl). pose proof (slot_in os c TypeCategory o R T) as [I C].
      assert (forall e, endian c = Some e -> orderless (what o) -> spec_of (Some (InvalidEndianness, location e)) (forall k, has_category os EndiannessCategory -> orderless k -> ~ has os k)) as BAD.
      { intros e E O. pose proof (slot_in os c EndiannessCategory e R E) as [I' C']. cbn. split.
        - intros F. apply (F (what o)); [exists e; auto|assumption|exists o; auto].
        - exists e. split; [assumption|]. split; [reflexivity|]. apply blames_order with (k := what o); auto. exists o. auto. }
      assert (endian c = None -> forall k, has_category os EndiannessCategory -> orderless k -> ~ has os k) as NO.
      { intros E k H. destruct (no_category EndiannessCategory E H). }
      destruct (what o) eqn:W; try discriminate C; try exact (K ltac:(unfold orderless; intuition discriminate));
        (destruct (endian c) as [e|]; [apply BAD; [reflexivity|unfold orderless; tauto]|cbn; apply NO; reflexivity]).
    - cbn. intros k _ O H. apply type_kind in H; [rewrite T in H; discriminate|destruct O as [->|[->|[->| ->]]]; reflexivity].
  Qed.

  Lemma signed_check_spec : spec_of (signed_check c)
    (forall k, has_category os SignednessCategory -> category_of k = TypeCategory -> has os k -> k = Int).
  Proof using R.
    unfold signed_check. destruct (type_ c) as [o|] eqn:T.
    - pose proof (slot_in os c TypeCategory o R T) as [I C].
      destruct (signed c) as [s|] eqn:S.
      + assert (spec_of (if match what o with Int => true | _ => false end then None else Some (SignednessUsedOnNonInt (label o), location s))
          (forall k, has_category os SignednessCategory -> category_of k = TypeCategory -> has os k -> k = Int)) as K.
        { pose proof (slot_in os c SignednessCategory s R S) as [I' C'].
          destruct (match what o with Int => true | _ => false end) eqn:W.
          - cbn. intros k _ CK H. apply (type_kind k CK) in H. rewrite T in H. injection H as <-. destruct (what o); congruence.
          - cbn. split.
            + intros F. specialize (F (what o)). rewrite F in W; [discriminate|exists s; auto|assumption|exists o; auto].
            + exists s. split; [assumption|]. split; [reflexivity|]. constructor; auto. intros E. rewrite E in W. discriminate. }
        destruct o as [[] l]; exact K.
      + assert (forall k, has_category os SignednessCategory -> category_of k = TypeCategory -> has os k -> k = Int) as K.
        { intros k H. destruct (no_category SignednessCategory S H). }
        destruct o as [[] l]; exact K.
    - cbn. intros k _ CK H. apply (type_kind k CK) in H. rewrite T in H. discriminate.
  Qed.

  Lemma is_unicode_iff o : is_unicode o = true <-> unicode (what o).
  Proof using. unfold is_unicode, unicode. destruct (what o); split; intros H; try reflexivity; try tauto; try discriminate; intuition discriminate. Qed.
  Lemma unicode_type k : unicode k -> category_of k = TypeCategory.
  Proof using. intros [->|[->|[->|[->|[->| ->]]]]]; reflexivity. Qed.

  Lemma unicode_check_spec : spec_of (unicode_check c)
    ((forall k, unicode k -> has os k -> ~ has_category os UnitCategory) /\
     (forall k, unicode k -> has os k -> ~ has_category os SizeCategory)).
  Proof using R.
    unfold unicode_check. destruct (type_ c) as [o|] eqn:T.
    2:{ cbn. split; intros k U H; apply (type_kind k (unicode_type k U)) in H; rewrite T in H; discriminate. }
    pose proof (slot_in os c TypeCategory o R T) as [I C]. assert (has os (what o)) as H by (exists o; auto).
    destruct (is_unicode o) eqn:U.
    2:{ assert (forall k, unicode k -> ~ has os k) as K.
        { intros k UK HK. apply (type_kind k (unicode_type k UK)) in HK. rewrite T in HK. injection HK as <-. apply is_unicode_iff in UK. congruence. }
        cbn. split; intros k UK HK; destruct (K k UK HK). }
    apply is_unicode_iff in U. destruct (unit c) as [u|] eqn:UN.
    - pose proof (slot_in os c UnitCategory u R UN) as [I' C']. cbn. split.
      + intros [F _]. apply (F (what o) U H). exists u; auto.
      + exists u. split; [assumption|]. split; [reflexivity|]. now apply blames_unicode_unit.
    - destruct (size c) as [s|] eqn:S.
      + pose proof (slot_in os c SizeCategory s R S) as [I' C']. cbn. split.
        * intros [_ F]. apply (F (what o) U H). exists s; auto.
        * exists s. split; [assumption|]. split; [reflexivity|]. now apply blames_unicode_size.
      + cbn. split; intros k _ _; [now apply (no_category UnitCategory)|now apply (no_category SizeCategory)].
  Qed.

  Lemma unit_check_spec : spec_of (unit_check c) (has_category os UnitCategory -> has_category os SizeCategory).
  Proof using R.
    unfold unit_check. destruct (unit c) as [u|] eqn:UN; [|cbn; intros H; destruct (no_category UnitCategory UN H)].
    pose proof (slot_in os c UnitCategory u R UN) as [I' C'].
    destruct (size c) as [s|] eqn:S; [cbn; intros _; now apply (some_category SizeCategory s)|].
    pose proof (no_category SizeCategory S) as N. cbn. split.
    - intros F. apply N, F. exists u; auto.
    - exists u. split; [assumption|]. split; [reflexivity|]. now apply blames_unit_size.
  Qed.

  Lemma has_size z : has os (Size (Some z)) <-> option_map what (size c) = Some (Size (Some z)).
  Proof using R. apply (has_slot os c (Size (Some z)) R). Qed.

  Lemma float_check_spec : spec_of (float_check c)
    (forall z, has os Float -> has os (Size (Some z)) -> In z [16; 32; 64]%Z).
  Proof using R.
    unfold float_check. pose proof (has_slot os c Float R) as HF. cbn [category_of slot] in HF.
    assert (option_map what (type_ c) <> Some Float -> forall z, has os Float -> has os (Size (Some z)) -> In z [16; 32; 64]%Z) as K by tauto.
    destruct (option_map what (type_ c)) as [[]|]; try (cbn -[In]; apply K; discriminate).
    clear K. destruct (size c) as [[k l]|] eqn:S; [|cbn -[In]; intros z _ H; rewrite has_size, S in H; discriminate].
    pose proof (slot_in os c SizeCategory _ R S) as [I C]. destruct k; try discriminate C.
    destruct literal as [z|]; [|cbn -[In]; intros z _ H; rewrite has_size, S in H; discriminate].
    destruct ((z =? 16) || (z =? 32) || (z =? 64))%Z eqn:E; cbn -[In].
    - intros z' _ H. rewrite has_size, S in H. injection H as <-. cbn. lia.
    - assert (~ In z [16; 32; 64]%Z) as N by (cbn; lia). split.
      + intros F. apply N, F; [now apply HF|]. rewrite has_size, S. reflexivity.
      + eexists. split; [exact I|]. split; [reflexivity|]. apply blames_float with (z := z); auto. now apply HF.
  Qed.

  Lemma constant_size_check_spec : spec_of (constant_size_check m c)
    (forall z, m = Pattern -> has os (Size (Some z)) -> (0 < z)%Z).
  Proof using R.
    unfold spec_of, constant_size_check. destruct m; [cbn; intros; discriminate|].
    destruct (size c) as [[k l]|] eqn:S; [|cbn; intros z _ H; rewrite has_size, S in H; discriminate].
    pose proof (slot_in os c SizeCategory _ R S) as [I C]. destruct k; try discriminate C.
    destruct literal as [z|]; [|cbn; intros z _ H; rewrite has_size, S in H; discriminate].
    destruct (z <=? 0)%Z eqn:E; cbn.
    - split.
      + intros F. assert (0 < z)%Z; [|lia]. apply F; [reflexivity|]. rewrite has_size, S. reflexivity.
      + eexists. split; [exact I|]. split; [reflexivity|]. apply blames_not_positive with (z := z); auto. lia.
    - intros z' _ H. rewrite has_size, S in H. injection H as <-. lia.
  Qed.

  Lemma segment_type_spec : exists ty, segment_type_of c = Ok ty /\ forall ty', documented os ty' <-> ty' = ty.
  Proof using R.
    unfold segment_type_of.
    assert (forall k, category_of k = TypeCategory -> (has os k <-> option_map what (type_ c) = Some k)) as K.
    { intros k C. pose proof (has_slot os c k R) as H. rewrite C in H. exact H. }
    assert (has_category os TypeCategory <-> option_map what (type_ c) <> None) as KN.
    { rewrite (has_category_slot os c TypeCategory R). cbn. destruct (type_ c); cbn; split; congruence. }
    pose proof (kind_category TypeCategory) as KC. cbn [slot] in KC.
    destruct (option_map what (type_ c)) as [k|] eqn:W.
    - specialize (KC k eq_refl).
      assert (forall ty', documented os ty' -> match k with Int => ty' = IntType | Float => ty' = FloatType | Utf8 | Utf16 | Utf32 => ty' = StringType | Bytes | Bits => ty' = BitArrayType | Utf8Codepoint | Utf16Codepoint | Utf32Codepoint => ty' = UtfCodepointType | _ => False end) as D.
      { intros ty' H. destruct H as [N|H|H|k' H O|k' H O|k' H O].
        - destruct N. apply KN. discriminate.
        - apply K in H; [|reflexivity]. injection H as ->. reflexivity.
        - apply K in H; [|reflexivity]. injection H as ->. reflexivity.
        - destruct O as [->|[->| ->]]; (apply K in H; [|reflexivity]; injection H as ->; reflexivity).
        - destruct O as [->| ->]; (apply K in H; [|reflexivity]; injection H as ->; reflexivity).
        - destruct O as [->|[->| ->]]; (apply K in H; [|reflexivity]; injection H as ->; reflexivity). }
      assert (has os k) as H by (apply K; auto).
      destruct k; try discriminate KC; eexists; (split; [reflexivity|]); intros ty'; (split; [apply D|intros ->]).
      + eapply documented_bit_array; [exact H|auto].
      + now apply documented_int.
      + now apply documented_float.
      + eapply documented_bit_array; [exact H|auto].
      + eapply documented_string; [exact H|auto].
      + eapply documented_string; [exact H|auto].
      + eapply documented_string; [exact H|auto].
      + eapply documented_codepoint; [exact H|unfold codepoint; auto].
      + eapply documented_codepoint; [exact H|unfold codepoint; auto].
      + eapply documented_codepoint; [exact H|unfold codepoint; auto].
    - exists IntType. split; [reflexivity|]. intros ty'. split.
      + intros H. destruct H as [N|H|H|k' H O|k' H O|k' H O]; [reflexivity..| | | |].
        * apply K in H; [discriminate|reflexivity].
        * destruct O as [->|[->| ->]]; (apply K in H; [discriminate|reflexivity]).
        * destruct O as [->| ->]; (apply K in H; [discriminate|reflexivity]).
        * destruct O as [->|[->| ->]]; (apply K in H; [discriminate|reflexivity]).
      + intros ->. apply documented_default. rewrite KN. tauto.
  Qed.
End Checks.

Lemma unsupported_spec os m must t o e : In o os -> unsupported_error m t (what o) = Some e -> blames os m must t e o.
Proof.
  intros I. destruct (what o) eqn:W; cbn; try discriminate; destruct m, t; try discriminate; intros [= <-];
    try (apply blames_codepoint; auto; unfold codepoint; rewrite W; tauto); apply blames_native; auto.
Qed.
Lemma supported_spec os m t : (forall o, In o os -> unsupported_error m t (what o) = None) ->
  (forall k, m = Pattern -> t = JavaScript -> codepoint k -> ~ has os k) /\ (t = JavaScript -> ~ has os Native).
Proof.
  intros S. split.
  - intros k -> -> C (o & I & <-). specialize (S o I). destruct C as [C|[C|C]]; rewrite C in S; discriminate.
  - intros -> (o & I & W). specialize (S o I). rewrite W in S. destruct m; discriminate.
Qed.

Lemma blames_meaningful os m must t e o : blames os m must t e o -> ~ meaningful os m must t.
Proof.
  intros B M. destruct M as [M1 M2 M3 M4 M5 M6 M7 M8 M9 M10 M11 M12 M13]. destruct B.
  - eapply M1; eassumption.
  - eapply M1; eassumption.
  - eapply M1; eassumption.
  - eapply M1; eassumption.
  - eapply M1; eassumption.
  - eapply M2; try eassumption. eexists; eauto.
  - eapply M3; try eassumption. eexists; eauto.
  - destruct H1 as [C|C]; [eapply M4; try eassumption; eexists; eauto|eapply M5; try eassumption; eexists; eauto].
  - apply H2. eapply M6; try eassumption. eexists; eauto.
  - eapply M7; try eassumption. eexists; eauto.
  - apply H1. eapply M8; try eassumption; eexists; eauto.
  - eapply M9; try eassumption; eexists; eauto.
  - eapply M10; try eassumption; eexists; eauto.
  - apply H1. apply M11. eexists; eauto.
  - apply H2. apply M12; [assumption|]. eexists; eauto.
  - assert (0 < z)%Z; [|lia]. apply M13; [assumption|]. eexists; eauto.
Qed.

Theorem type_options_spec os m must t :
  match type_options os m must t with
  | Ok ty => meaningful os m must t /\ forall ty', documented os ty' <-> ty' = ty
  | Err e l => exists o, In o os /\ l = location o /\ blames os m must t e o
  | Panic => False
  end.
Proof.
  unfold type_options. pose proof (categorise_spec m t os [] _ represents_nil) as C.
  destruct (categorise m t os (Categories None None None None None)) as [c|[e l]].
  - destruct C as [R SUP]. cbn [app] in R.
    pose proof (value_check_spec os c m must t R) as K1. pose proof (size_check_spec os c m must t R) as K2.
    pose proof (endian_check_spec os c m must t R) as K3. pose proof (signed_check_spec os c m must t R) as K4.
    pose proof (unicode_check_spec os c m must t R) as K5. pose proof (unit_check_spec os c m must t R) as K6.
    pose proof (float_check_spec os c m must t R) as K7. pose proof (constant_size_check_spec os c m must t R) as K8.
    destruct (segment_type_spec os c R) as (ty & ET & DT). destruct (supported_spec os m t SUP) as [S1 S2].
    unfold spec_of in *.
    destruct (value_check m c) as [[e l]|]; [cbn; apply K1|].
    destruct (size_check must c) as [[e l]|]; [cbn; apply K2|].
    destruct (endian_check c) as [[e l]|]; [cbn; apply K3|].
    destruct (signed_check c) as [[e l]|]; [cbn; apply K4|].
    destruct (unicode_check c) as [[e l]|]; [cbn; apply K5|].
    destruct (unit_check c) as [[e l]|]; [cbn; apply K6|].
    destruct (float_check c) as [[e l]|]; [cbn; apply K7|].
    destruct (constant_size_check m c) as [[e l]|]; [cbn; apply K8|].
    cbn. rewrite ET. split; [|exact DT]. destruct K1, K5. constructor; auto. exact (proj2 R).
  - destruct C as (before & o & after & -> & -> & H). exists o. split; [apply in_elt|]. split; [reflexivity|].
    destruct H as [H|(p & H & ->)].
    + apply unsupported_spec; [apply in_elt|assumption].
    + cbn [app] in H. replace (before ++ o :: after) with ((before ++ [o]) ++ after) by (now rewrite <- app_assoc).
      apply repeats_app with (os' := after) in H. destruct (category_of (what o)); cbn; econstructor; exact H.
Qed.

(** ** Truncated literals *)
Lemma category_unique os a b : (forall c p o, ~ repeats os c p o) -> In a os -> In b os ->
  category_of (what a) = category_of (what b) -> a = b.
Proof.
  intros U A B E. apply In_nth_error in A, B. destruct A as [i A], B as [j B].
  destruct (Nat.lt_trichotomy i j) as [L|[->|L]]; [|congruence|].
  - destruct (U (category_of (what b)) a b). exists i, j. auto.
  - destruct (U (category_of (what b)) b a). exists j, i. auto.
Qed.
Lemma find_size_spec os : match find_size os with
  | None => ~ has_category os SizeCategory
  | Some v => has os (Size v)
  end.
Proof.
  induction os as [|[k l] os IH]; [intros (o & [] & _)|].
  assert (category_of k <> SizeCategory -> match find_size os with None => ~ has_category (SegmentOption k l :: os) SizeCategory | Some v => has (SegmentOption k l :: os) (Size v) end) as K.
  { intros N. destruct (find_size os) as [v|].
    - destruct IH as (o & I & E). exists o. split; [now right|assumption].
    - intros (o & [<-|I] & E); [contradiction|]. apply IH. exists o. auto. }
  destruct k; try (apply K; discriminate). exists (SegmentOption (Size literal) l). split; [now left|reflexivity].
Qed.
Lemma find_unit_spec os : forall b,
  (exists u, has os (Unit u) /\ find_unit b os = u) \/
  (~ has_category os UnitCategory /\ has os Bytes /\ find_unit b os = 8%N) \/
  (~ has_category os UnitCategory /\ ~ has os Bytes /\ find_unit b os = if b then 8%N else 1%N).
Proof.
  induction os as [|[k l] os IH]; intros b.
  { right; right. split; [|split; [|reflexivity]]; intros (o & [] & _). }
  assert (forall b, category_of k <> UnitCategory -> find_unit b (SegmentOption k l :: os) = find_unit (match k with Bytes => true | _ => b end) os) as E.
  { intros b' N. destruct k; try reflexivity. cbn in N. congruence. }
  destruct (category_of k) eqn:C.
  4:{ destruct k; try discriminate C. left. exists value. split; [|reflexivity]. eexists. split; [now left|reflexivity]. }
  all: rewrite E by discriminate; destruct (IH (match k with Bytes => true | _ => b end)) as [(u & (o & I & W) & ->)|[(N & (o & I & W) & ->)|(N & NB & ->)]].
  all: try (left; exists u; split; [exists o; split; [now right|assumption]|reflexivity]).
  all: assert (~ has_category (SegmentOption k l :: os) UnitCategory) as NU
         by (intros (o' & [<-|I'] & W'); [cbn in W'; congruence|apply N; exists o'; auto]).
  all: try (right; left; split; [exact NU|]; split; [exists o; split; [now right|assumption]|reflexivity]).
  all: assert (k = Bytes \/ k <> Bytes) as [->|NK] by (destruct k; auto; right; discriminate).
  all: try (right; left; split; [exact NU|]; split; [eexists; split; [now left|reflexivity]|reflexivity]).
  all: right; right; split; [exact NU|]; split; [|destruct k; congruence].
  all: intros (o1 & [<-|I1] & W1); [cbn in W1; congruence|apply NB; exists o1; auto].
Qed.

Section Width.
  Context (is_int : bool) (os : list segment_option) (U : forall c p o, ~ repeats os c p o).
  Lemma has_unique k k' : has os k -> has os k' -> category_of k = category_of k' -> k = k'.
  Proof using U. intros (a & A & <-) (b & B & <-) E. now rewrite (category_unique os a b U A B E). Qed.
  Lemma has_has_category k : has os k -> has_category os (category_of k).
  Proof using. intros (o & I & <-). exists o. auto. Qed.

  Lemma bits_size_spec w : width is_int os w -> bits_size is_int os = Some w.
  Proof using U.
    intros W. unfold bits_size. pose proof (find_size_spec os) as S. pose proof (find_unit_spec os false) as F. destruct W as [NS NU NB|z H NU NB|z H NU HB|z u H HU].
    - destruct (find_size os) as [v|]; [destruct NS; apply (has_has_category _ S)|].
      destruct F as [(u & H & _)|[(_ & H & _)|(_ & _ & ->)]]; [destruct NU; apply (has_has_category _ H)|contradiction|]. f_equal. lia.
    - destruct (find_size os) as [v|]; [|destruct S; apply (has_has_category _ H)]. pose proof (has_unique _ _ H S eq_refl) as E. injection E as <-.
      destruct F as [(u & H' & _)|[(_ & H' & _)|(_ & _ & ->)]]; [destruct NU; apply (has_has_category _ H')|contradiction|]. f_equal. lia.
    - destruct (find_size os) as [v|]; [|destruct S; apply (has_has_category _ H)]. pose proof (has_unique _ _ H S eq_refl) as E. injection E as <-.
      destruct F as [(u & H' & _)|[(_ & H' & ->)|(_ & N & _)]]; [destruct NU; apply (has_has_category _ H')| |contradiction]. f_equal. lia.
    - destruct (find_size os) as [v|]; [|destruct S; apply (has_has_category _ H)]. pose proof (has_unique _ _ H S eq_refl) as E. injection E as <-.
      destruct F as [(u' & H' & ->)|[(N & _)|(N & _)]]; [|destruct N; apply (has_has_category _ HU)..].
      pose proof (has_unique _ _ HU H' eq_refl) as E. injection E as <-. reflexivity.
  Qed.
  Lemma bits_size_unknown : has os (Size None) -> bits_size is_int os = None.
  Proof using U.
    intros H. unfold bits_size. pose proof (find_size_spec os) as S. destruct (find_size os) as [v|]; [|destruct S; apply (has_has_category _ H)].
    pose proof (has_unique _ _ H S eq_refl) as E. injection E as <-. reflexivity.
  Qed.
End Width.

Local Open Scope Z_scope.
Lemma truncate_spec z bits : 0 < bits -> truncate z bits = read_unsigned bits z.
Proof.
  intros L. unfold truncate, read_unsigned. rewrite Z.shiftl_1_l. rewrite <- (Z.land_ones z bits) by lia. f_equal. rewrite Z.ones_equiv. lia.
Qed.
Lemma truncated_spec z bits : 0 < bits -> z <> 0 ->
  ((if z <? 0 then in_range z (- Z.shiftl 1 (bits - 1)) (Z.shiftl 1 (bits - 1) - 1) else in_range z 0 (Z.shiftl 1 bits)) = false
   <-> read_unsigned bits z <> z /\ read_signed bits z <> z).
Proof.
  intros L NZ. rewrite !Z.shiftl_1_l. unfold in_range, read_unsigned, read_signed.
  assert (2 ^ bits = 2 * 2 ^ (bits - 1)) as E by (rewrite <- Z.pow_succ_r by lia; f_equal; lia).
  pose proof (Z.pow_pos_nonneg 2 (bits - 1) ltac:(lia) ltac:(lia)) as P. set (h := 2 ^ (bits - 1)) in *. rewrite !E. clearbody h.
  pose proof (Z.mod_pos_bound z (2 * h) ltac:(lia)) as B. pose proof (Z.div_mod z (2 * h) ltac:(lia)) as D.
  set (r := z mod (2 * h)) in *. set (q := z / (2 * h)) in *. clearbody r q.
  destruct (Z.ltb_spec z 0); destruct (Z.ltb_spec r h); split; intros H'; try lia.
  all: try (split; intros E'; nia).
  all: destruct H' as [H1 H2]; apply andb_false_iff.
  all: try (rewrite Z.leb_gt, Z.ltb_ge).
  all: destruct (Z.eq_dec q 0) as [->|]; [lia|]; destruct (Z.eq_dec q (-1)) as [->|]; nia.
Qed.
