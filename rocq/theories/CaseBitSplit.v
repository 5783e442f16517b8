(** Splitting on bit arrays. *)
From Coq Require Import ZArith NArith Bool List Lia Permutation.
From Verif Require Import Text Strings StringsSpec Bits BitsSpec BitsProofs Case CaseSpec CaseText CasePure CaseSem CaseStatic CaseMove CaseResidual CaseDeriv CaseNice CaseSplit CaseKinds.
Import ListNotations.
Local Open Scope nat_scope.

(** ** A test and itself *)
Lemma checking_same_refl v : checking_same_value v v = true.
Proof. induction v; cbn; auto; try (now apply text_eqb_iff). apply Z.eqb_refl. Qed.
Lemma equivalent_refl t : equivalent_to t t = true.
Proof.
  destruct t as [op o|v r|o|z|r]; cbn.
  - apply andb_true_iff. split; [now destruct op|]. now apply offset_eqb_eq.
  - apply andb_true_iff. split; [apply checking_same_refl|]. now apply read_eqb_eq.
  - now apply offset_eqb_eq.
  - now apply size_eqb_eq.
  - now apply read_eqb_eq.
Qed.
Lemma succeeds_refl t : succeeds_if_succeeding t t = true.
Proof. unfold succeeds_if_succeeding. now rewrite equivalent_refl. Qed.
Lemma fails_refl t : fails_if_failing t t = true.
Proof. unfold fails_if_failing. now rewrite equivalent_refl. Qed.

Lemma interferes_constant v r w q i : interfering_bits v r w q = Interferes i -> value_constant_bits w <> None.
Proof.
  unfold interfering_bits. intros H N. rewrite N in H.
  repeat match type of H with context[match ?x with _ => _ end] => destruct x; try discriminate end.
Qed.

(** A test known to succeed binds nothing. *)
Lemma succeeds_names u t : plain_test u -> plain_test t -> strippable t = false -> succeeds_if_succeeding u t = true ->
  match u with Match v _ => value_names v = [] | _ => True end.
Proof.
  intros PU PT ST H. destruct u as [|v r| | |]; auto. unfold succeeds_if_succeeding in H.
  destruct t as [|w q| | |]; try discriminate.
  assert (checking_same_value w v = true \/ value_constant_bits v <> None) as K.
  { cbn [equivalent_to] in H. destruct (checking_same_value w v && read_eqb q r) eqn:E.
    - apply andb_true_iff in E. tauto.
    - right. destruct (interfering_bits w q v r) as [i| |] eqn:EI; try discriminate. now apply interferes_constant in EI. }
  cbn [plain_test strippable] in *.
  destruct v as [f|z br|s br|n|n|n v]; try reflexivity; exfalso.
  - destruct K as [K|K]; [|now apply K]. destruct w; try discriminate; try (destruct (PT _ _ eq_refl) as [m ->]; discriminate).
  - destruct (PU n v eq_refl) as [m ->]. destruct K as [K|K]; [|now apply K].
    destruct w; try discriminate; try (destruct (PT _ _ eq_refl) as [m' ->]; discriminate).
Qed.

Section BitSplit.
  Context (env : environment)
          (outside : text -> Z)
          (float_is : text -> endianness -> list bool -> bool)
          (finite : endianness -> list bool -> bool)
          (float_value : text -> val)
          (guards : nat -> list (text * val) -> bool)
          (guards_perm : forall c l m, Permutation l m -> guards c l = guards c m).
  Notation hold := (holds outside float_is finite).
  Notation passes := (passes outside float_is finite).
  Notation tmatch := (tmatch outside float_is finite).
  Notation checks_match := (checks_match outside float_is finite).
  Notation selected := (selected outside float_is finite float_value guards).
  Notation first_match := (first_match outside float_is finite float_value guards).
  Notation alike := (alike outside float_is finite float_value).
  Notation guarded := (guarded outside float_is finite).
  Notation test_values := (test_values outside).
  Notation tests_values := (tests_values outside).
  Notation good_test := (good_test outside).
  Notation has_type := (has_type env).
  Notation okt := (okt env outside float_is finite).
  Notation okb := (okb env outside float_is finite).
  Notation goodb := (goodb env outside float_is finite).
  Context (pv : cvar) (G0 : nat -> ctype) (n0 : nat).
  Notation dynamic := (dynamic env outside float_is finite float_value guards pv n0).
  Notation bits_residual := (bits_residual env outside float_is finite pv).
  Notation light := light.

  Lemma filter_tests b f ts : (forall t, In t ts -> f t = false -> hold b t = true /\ test_values b t = []) ->
    forallb (hold b) (filter f ts) = forallb (hold b) ts /\ tests_values b (filter f ts) = tests_values b ts.
  Proof.
    induction ts as [|t ts IH]; intros H; [auto|]. cbn [filter forallb]. destruct IH as [A B]; [intros u I; apply H; now right|].
    unfold CaseSem.tests_values in *. destruct (f t) eqn:E; cbn [forallb flat_map].
    - now rewrite A, B.
    - destruct (H t (or_introl eq_refl) E) as [-> ->]. auto.
  Qed.
  Lemma filter_length_lt {A} (f : A -> bool) l : (exists x, In x l /\ f x = false) -> length (filter f l) < length l.
  Proof.
    intros (x & I & E). induction l as [|y l IH]; [destruct I|]. cbn.
    assert (length (filter f l) <= length l) by (clear; induction l as [|t ts IH]; cbn; [lia|]; destruct (f t); cbn; lia).
    destruct I as [->|I]; [rewrite E; lia|]. specialize (IH I). destruct (f y); cbn; lia.
  Qed.
  Lemma filter_all {A} (l : list A) : filter (fun _ => true) l = l.
  Proof. induction l; cbn; congruence. Qed.

  Definition bit_push (b : branch tree) (cs : list (cvar * tree)) (f : test -> bool) (ts : list test) : branch tree :=
    with_checks b (cs ++ [(pv, T (ABitArray (filter f ts)))]).
  Lemma bit_push_ok b ts cs f : okb G0 n0 b -> Permutation (checks b) ((pv, T (ABitArray ts)) :: cs) ->
    rep pv (bits_residual f) b (bit_push b cs f ts) /\
    weight (bit_push b cs f ts) <= weight b /\
    ((exists t, In t ts /\ f t = false) -> weight (bit_push b cs f ts) < weight b) /\
    forall st bits, goodb st b -> st (id pv) = VBits bits ->
      (forall t, In t ts -> f t = false -> hold bits t = true /\ test_values bits t = []) ->
      goodb st (bit_push b cs f ts) /\ alike b st (bit_push b cs f ts) st.
  Proof.
    intros O P. destruct (okb_pivot _ _ _ _ _ _ _ _ _ _ O P) as (VP & OP & LP & F1 & F2 & F3 & NDC).
    assert (weight (bit_push b cs f ts) = S (csize cs + S (length (filter f ts)))) as W1.
    { unfold weight, bit_push. cbn [checks with_checks]. rewrite csize_app. unfold csize. simpl. lia. }
    assert (weight b = S (S (length ts) + csize cs)) as W2 by (unfold weight; now rewrite (csize_perm _ _ P)).
    split; [|split; [|split]].
    - exists (T (ABitArray ts)), cs, [(pv, T (ABitArray (filter f ts)))]. split; [assumption|]. split; [reflexivity|]. exists ts. auto.
    - assert (length (filter f ts) <= length ts) by (clear; induction ts as [|t ts IH]; cbn; [lia|]; destruct (f t); cbn; lia). lia.
    - intros H. apply filter_length_lt in H. lia.
    - intros st bits GB EB HF. unfold CaseStatic.goodb in GB. pose proof (Permutation_Forall P GB) as GB'.
      inversion GB' as [|? ? [HT TG] GC]; subst. cbn [fst snd] in HT, TG. split.
      + unfold CaseStatic.goodb, bit_push. cbn [checks with_checks]. apply Forall_app. split; [assumption|]. constructor; [|constructor].
        cbn [fst snd]. split; [assumption|]. cbn in *. intros bb E. apply guarded_filter; [apply TG, E|].
        rewrite EB in E. injection E as <-. intros t I FT. now apply HF.
      + eapply alike_replace; [exact P|reflexivity|apply O|reflexivity|]. cbn [CaseSem.checks_match CaseSem.tmatch].
        rewrite EB. destruct (filter_tests bits f ts HF) as [-> ->].
        destruct (forallb (hold bits) ts); cbn [both]; [rewrite app_nil_r|]; apply peq_refl.
  Qed.

  Definition bitinv (bs : list (branch tree)) (s : splitter tree) : Prop :=
    sub (deriv pv (bits_residual (fun _ => true))) bs (fallback s) /\ light bs (fallback s) /\
    ((bs = [] /\ choices s = []) \/
     (bs <> [] /\ exists t l, choices s = [(IsBitArray t, l)] /\ good_test t /\ strippable t = false /\
       light bs l /\ sub (deriv pv (bits_residual (fun u => negb (succeeds_if_succeeding u t)))) bs l)).

  Lemma bits_fallback_step bs s b : okb G0 n0 b -> keeps pv b -> bs <> [] -> bitinv bs s -> dynamic bs s ->
    bitinv (bs ++ [b]) (add_fallback_branch b s) /\ dynamic (bs ++ [b]) (add_fallback_branch b s).
  Proof.
    intros O K NE (SF & LF & [[E _]|(_ & t & l & EC & GT & STR & LL & SL)]) D; [congruence|]. split.
    - unfold add_fallback_branch. cbn [fallback choices]. split; [|split]; cbn [fallback choices].
      + apply sub_take; [assumption|]. now left.
      + now apply (light_snoc guards guards_perm G0 n0).
      + right. split; [destruct bs; discriminate|]. exists t, (l ++ [b]). rewrite EC. split; [reflexivity|].
        split; [assumption|]. split; [assumption|]. split; [now apply (light_snoc guards guards_perm G0 n0)|]. apply sub_take; [assumption|]. now left.
    - intros st l' st' H GD E. apply Forall_app in GD as [GD GB]. inversion GB as [|? ? GB1 _]; subst. clear GB.
      unfold add_fallback_branch in E. cbn [choices fallback] in E. rewrite EC in E.
      specialize (D st). rewrite EC in D. cbn [map choose fst snd] in D, E.
      destruct (passes (IsBitArray t) (st (id pv))) as [bnd|]; injection E as <- <-.
      + destruct (D l _ H GD eq_refl) as (D1 & D2 & D3). split; [assumption|]. split.
        * apply Forall_app. split; [assumption|]. constructor; [|constructor]. eapply goodb_ext; eassumption.
        * apply (first_snoc _ _ _ _ guards guards_perm G0 n0); [assumption..|]. destruct O as (_ & _ & BL). eapply alike_ext; eassumption.
      + destruct (D (fallback s) _ H GD eq_refl) as (D1 & D2 & D3). split; [assumption|]. split.
        * apply Forall_app. split; [assumption|]. constructor; [|constructor]. assumption.
        * apply (first_snoc _ _ _ _ guards guards_perm G0 n0); [assumption..|]. apply alike_refl.
  Qed.

  Lemma bits_step bs s b ts cs m x : var_type pv = CBitArray -> okb G0 n0 b ->
    Permutation (checks b) ((pv, T (ABitArray ts)) :: cs) -> refutable (ABitArray ts) ->
    bitinv bs s -> dynamic bs s ->
    exists s', padd_checked pv (ABitArray ts) (with_checks b cs) m s x = Done (s', x) /\
      bitinv (bs ++ [b]) s' /\ dynamic (bs ++ [b]) s'.
  Proof.
    intros PT O P [NT FO] (SF & LF & CI) D.
    destruct (okb_pivot _ _ _ _ _ _ _ _ _ _ O P) as (VP & OP & LP & F1 & F2 & F3 & NDC).
    assert (Forall good_test ts) as GT by (inversion OP; assumption).
    assert (exists t l, good_test t /\ strippable t = false /\ light bs l /\
      sub (deriv pv (bits_residual (fun u => negb (succeeds_if_succeeding u t)))) bs l /\
      (bs = [] -> l = [] /\ In t ts) /\
      (forall st st' l', has_type (st (id pv)) (var_type pv) -> Forall (goodb st) bs ->
        choose outside float_is finite [(IsBitArray t, l)] (fallback s) (st (id pv)) st = (l', st') ->
        st' = st /\ Forall (goodb st) l' /\ same_outcome (first_match bs st) (first_match l' st)) /\
      padd_checked pv (ABitArray ts) (with_checks b cs) m s x =
        Done (Splitter [(IsBitArray t, if existsb (fun u => fails_if_succeeding u t) ts then l
                                       else l ++ [bit_push b cs (fun u => negb (succeeds_if_succeeding u t)) ts])]
               (if existsb (fun u => fails_if_failing u t) ts then fallback s
                else fallback s ++ [bit_push b cs (fun _ => true) ts]) (indices s) (prefix_indices s), x)) as
      (t & l & GT1 & STR & LL & SL & FI & DD & ->).
    { destruct CI as [[-> EC]|(NE & t & l & EC & GT1 & STR & LL & SL)].
      - destruct ts as [|t ts]; [congruence|]. inversion GT; subst. cbn [front_ok] in FO. exists t, [].
        split; [assumption|]. split; [assumption|]. split; [now left|]. split; [constructor|]. split; [split; [reflexivity|now left]|]. split.
        + intros st st' l' H _ E. destruct LF as [[_ EF]|LF]; [|cbn in LF; lia]. rewrite EF in E.
          rewrite PT in H. destruct (typed_bits env _ H) as [bits EB]. cbn [choose] in E. rewrite EB in E. cbn [CaseSpec.passes] in E.
          destruct (hold bits t); injection E as <- <-; cbn; auto.
        + unfold padd_checked, padd_bits. rewrite EC. cbn [bind choices with_choices]. unfold bit_push. rewrite filter_all.
          destruct (existsb (fun u => fails_if_succeeding u t) (t :: ts)); destruct (existsb (fun u => fails_if_failing u t) (t :: ts)); reflexivity.
      - exists t, l. split; [assumption|]. split; [assumption|]. split; [assumption|]. split; [assumption|]. split; [intros ->; congruence|]. split.
        + intros st st' l' H GD E. specialize (D st l' st' H GD). rewrite EC in D. specialize (D E).
          rewrite PT in H. destruct (typed_bits env _ H) as [bits EB]. cbn [choose] in E. rewrite EB in E. cbn [CaseSpec.passes] in E.
          destruct (hold bits t); injection E as <- <-; cbn [bind_all] in *; tauto.
        + unfold padd_checked, padd_bits. rewrite EC. destruct s as [sc sf si sp]. cbn [choices fallback indices prefix_indices] in *. subst sc.
          cbn [bind choices with_choices]. unfold bit_push. rewrite filter_all.
          destruct (existsb (fun u => fails_if_succeeding u t) ts); destruct (existsb (fun u => fails_if_failing u t) ts); reflexivity. }
    eexists. split; [reflexivity|].
    destruct (bit_push_ok b ts cs (fun _ => true) O P) as (R1 & W1 & _ & PO1).
    destruct (bit_push_ok b ts cs (fun u => negb (succeeds_if_succeeding u t)) O P) as (R2 & W2 & W2' & PO2).
    split.
    - split; [|split]; cbn [fallback choices].
      + destruct (existsb (fun u => fails_if_failing u t) ts); [now apply sub_skip|]. apply sub_take; [assumption|]. now right.
      + destruct (existsb (fun u => fails_if_failing u t) ts) eqn:EF; [now apply (light_skip guards guards_perm G0 n0)|].
        destruct bs as [|b0 bs]; [|apply (light_snoc guards guards_perm G0 n0); auto; discriminate]. exfalso.
        destruct (FI eq_refl) as [_ I]. assert (existsb (fun u => fails_if_failing u t) ts = true) by (apply existsb_exists; exists t; split; [assumption|apply fails_refl]). congruence.
      + right. split; [destruct bs; discriminate|]. eexists t, _. split; [reflexivity|]. split; [assumption|]. split; [assumption|]. split.
        * destruct (existsb (fun u => fails_if_succeeding u t) ts); [now apply (light_skip guards guards_perm G0 n0)|].
          destruct bs as [|b0 bs]; [|apply (light_snoc guards guards_perm G0 n0); auto; discriminate]. destruct (FI eq_refl) as [-> I].
          apply (light_first guards guards_perm G0 n0), W2'. exists t. split; [assumption|]. now rewrite succeeds_refl.
        * destruct (existsb (fun u => fails_if_succeeding u t) ts); [now apply sub_skip|]. apply sub_take; [assumption|]. now right.
    - intros st l' st' H GD E. apply Forall_app in GD as [GD GB]. inversion GB as [|? ? GB1 _]; subst. clear GB.
      pose proof H as HT. rewrite PT in HT. destruct (typed_bits env _ HT) as [bits EB].
      cbn [choices fallback choose] in E. specialize (DD st). cbn [choose] in DD.
      rewrite Forall_forall in GT. rewrite EB in E, DD. cbn [CaseSpec.passes] in E, DD.
      rewrite <- EB in DD. destruct (hold bits t) eqn:HO; injection E as <- <-; cbn [bind_all] in *.
      + destruct (DD st l H GD eq_refl) as (_ & D2 & D3). split; [auto|].
        destruct (existsb (fun u => fails_if_succeeding u t) ts) eqn:EF.
        * split; [assumption|]. apply first_skip; [assumption..|]. left.
          eapply not_selected; [exact P|]. rewrite EB. cbn [CaseSem.tmatch].
          apply existsb_exists in EF as (u & IU & FU).
          assert (hold bits u = false) as HU.
          { destruct (GT u IU) as (G1 & G2 & _). destruct GT1 as (G3 & G4 & _).
            exact (fails_if_succeeding_sound outside float_is finite bits u t G1 G3 (G2 bits) (G4 bits) FU HO). }
          destruct (forallb (hold bits) ts) eqn:FB; [|reflexivity]. rewrite forallb_forall in FB. rewrite (FB u IU) in HU. discriminate.
        * destruct (PO2 st bits GB1 EB) as [Q1 Q2].
          { intros u IU FU. apply negb_false_iff in FU. destruct (GT u IU) as (G1 & G2 & G5 & _). destruct GT1 as (G3 & G4 & G6 & _).
            split; [exact (succeeds_if_succeeding_sound outside float_is finite bits u t G1 G3 (G2 bits) (G4 bits) FU HO)|].
            pose proof (succeeds_names u t G5 G6 STR FU) as VN. unfold CaseSem.test_values. destruct u; try reflexivity. rewrite VN.
            destruct (read_of outside bits read); reflexivity. }
          split; [apply Forall_app; split; [assumption|constructor; [assumption|constructor]]|]. now apply (first_snoc _ _ _ _ guards guards_perm G0 n0).
      + destruct (DD st (fallback s) H GD eq_refl) as (_ & D2 & D3). split; [auto|].
        destruct (existsb (fun u => fails_if_failing u t) ts) eqn:EF.
        * split; [assumption|]. apply first_skip; [assumption..|]. left.
          eapply not_selected; [exact P|]. rewrite EB. cbn [CaseSem.tmatch].
          apply existsb_exists in EF as (u & IU & FU).
          assert (hold bits u = false) as HU.
          { destruct (GT u IU) as (G1 & G2 & _). destruct GT1 as (G3 & G4 & _).
            exact (fails_if_failing_sound outside float_is finite bits u t G1 G3 (G2 bits) (G4 bits) FU HO). }
          destruct (forallb (hold bits) ts) eqn:FB; [|reflexivity]. rewrite forallb_forall in FB. rewrite (FB u IU) in HU. discriminate.
        * destruct (PO1 st bits GB1 EB) as [Q1 Q2]; [discriminate|].
          split; [apply Forall_app; split; [assumption|constructor; [assumption|constructor]]|]. now apply (first_snoc _ _ _ _ guards guards_perm G0 n0).
  Qed.
End BitSplit.
