(** The checks of a way that ends without a clause, and values that follow it. *)
From Coq Require Import ZArith NArith Bool List Lia Permutation.
From Verif Require Import Text Strings StringsSpec Bits BitsSpec BitsProofs Case CaseSpec CaseText CasePure CaseSem CaseStatic CaseMove CaseResidual CaseDeriv CaseNice CaseSplit CaseKinds CaseCompile CasePaths CaseFalls MissingPatterns MissingPatternsSpec.
Import ListNotations.
Local Open Scope nat_scope.

Section Ways.
  Context (env : environment)
          (outside : text -> Z)
          (float_is : text -> endianness -> list bool -> bool)
          (finite : endianness -> list bool -> bool)
          (float_value : text -> val).
  Notation passes := (passes outside float_is finite).
  Notation run := (run outside float_is finite float_value none).
  Notation has_type := (has_type env).
  Notation tcheck := (tcheck env).
  Notation check_ok := (check_ok env).
  Notation wfd := (wfd env outside float_is finite).
  Notation sat := (sat outside float_is finite).
  Notation typed := (typed env).

  (** ** The checks of a way *)
  Inductive way (fl : flags) : nat -> list cvar -> list (cvar * check) -> Prop :=
    | way_end n L : way fl n L []
    | way_skip n n' L L' es : n <= n' -> (forall w, In w L' -> In w L) -> way fl n' L' es -> way fl n L es
    | way_step n n' L L' v c es : n <= n' -> NoDup (map id L) -> (forall w, In w L -> id w < n) -> In v L -> check_ok fl n n' v c ->
        (forall w, In w L' -> In w (without v L) \/ In w (check_vars c)) -> way fl n' L' es -> way fl n L ((v, c) :: es).

  Lemma path_way fl n L d : wfd fl n L d -> forall es, path d es -> way fl n L es.
  Proof.
    induction 1 as [n L b|n L|n L g b d W IH|n n' L v cs fb fc ND BL VL LE NK CK INF FIN WC IHC WF IHF]; intros es P; inversion P; subst.
    - constructor.
    - now apply IH.
    - rewrite Forall_forall in CK. eapply way_step with (n' := n') (L' := without v L ++ check_vars c); auto.
      + apply CK. apply in_or_app. left. apply in_map_iff. exists (c, d). auto.
      + intros w I. now apply in_app_iff.
      + now apply (IHC c d).
    - eapply way_skip with (n' := n') (L' := without v L ++ []); auto. intros w I. rewrite app_nil_r in I. now apply in_without in I.
    - rewrite Forall_forall in CK. eapply way_step with (n' := n') (L' := without v L ++ fallback_vars fc); auto.
      + apply CK. apply in_or_app. now right.
      + intros w I. apply in_app_iff in I as [I|I]; [now left|]. right. destruct fc as [|c'|ign]; [destruct I| |destruct I].
        match goal with H : In c _ |- _ => destruct H as [<-|[]] end. exact I.
  Qed.

  (** What each check is about. *)
  Definition way_vars (L : list cvar) (es : list (cvar * check)) : list cvar := L ++ flat_map (fun e => check_vars (snd e)) es.
  Lemma way_low fl n L es : way fl n L es -> forall v c, In (v, c) es ->
    (In v L \/ n <= id v) /\ (forall w, In w (check_vars c) -> n <= id w) /\ exists m m', n <= m /\ id v < m /\ check_ok fl m m' v c.
  Proof.
    induction 1 as [n L|n n' L L' es LE SUB W IH|n n' L L' v c es LE ND BL VL CK SUB W IH]; intros u k I; [destruct I| |].
    - destruct (IH u k I) as (A & B & m & m' & C1 & C2 & C3). split; [|split].
      + destruct A as [A|A]; [left; auto|right; lia].
      + intros w J. specialize (B w J). lia.
      + exists m, m'. split; [lia|]. split; [assumption|assumption].
    - destruct I as [[= <- <-]|I].
      + split; [now left|]. pose proof CK as (_ & _ & B & _). split; [intros w J; now apply B|].
        exists n, n'. split; [lia|]. split; [now apply BL|assumption].
      + destruct (IH u k I) as (A & B & m & m' & C1 & C2 & C3). pose proof CK as (_ & _ & BV & _). split; [|split].
        * destruct A as [A|A]; [|right; lia]. destruct (SUB u A) as [J|J]; [left; now apply in_without in J|right; now apply BV].
        * intros w J. specialize (B w J). lia.
        * exists m, m'. split; [lia|]. split; [assumption|assumption].
  Qed.
  Lemma way_nodup fl n L es : way fl n L es -> NoDup (map id (flat_map (fun e => check_vars (snd e)) es)).
  Proof.
    induction 1 as [n L|n n' L L' es LE SUB W IH|n n' L L' v c es LE ND BL VL CK SUB W IH]; cbn; [constructor|assumption|].
    rewrite map_app. apply NoDup_app_intro; [apply CK|assumption|]. intros i I J. apply in_map_iff in I as (a & <- & I). apply in_map_iff in J as (b & E & J).
    apply in_flat_map in J as ([u k] & J & JK). cbn in JK. destruct (way_low _ _ _ _ W u k J) as (_ & B & _). specialize (B b JK).
    destruct CK as (_ & _ & BV & _). specialize (BV a I). lia.
  Qed.
  Lemma way_vars_nodup fl n L es : way fl n L es -> NoDup (map id L) -> (forall w, In w L -> id w < n) -> NoDup (map id (way_vars L es)).
  Proof.
    intros W ND BL. unfold way_vars. rewrite map_app. apply NoDup_app_intro; [assumption|eapply way_nodup; eassumption|].
    intros i I J. apply in_map_iff in I as (a & <- & I). apply in_map_iff in J as (b & E & J).
    apply in_flat_map in J as ([u k] & J & JK). cbn in JK. destruct (way_low _ _ _ _ W u k J) as (_ & B & _). specialize (B b JK). specialize (BL a I). lia.
  Qed.
  Lemma way_in fl n L es : way fl n L es -> forall v c, In (v, c) es -> In v (way_vars L es).
  Proof.
    unfold way_vars. induction 1 as [n L|n n' L L' es LE SUB W IH|n n' L L' v c es LE ND BL VL CK SUB W IH]; intros u k I; [destruct I| |].
    - specialize (IH u k I). apply in_app_iff in IH as [J|J]; apply in_or_app; auto.
    - destruct I as [[= <- <-]|I]; [apply in_or_app; now left|]. specialize (IH u k I). cbn. apply in_app_iff in IH as [J|J].
      + destruct (SUB u J) as [K|K]; [apply in_without in K; apply in_or_app; now left|]. apply in_or_app. right. apply in_or_app. now left.
      + apply in_or_app. right. apply in_or_app. now right.
  Qed.
  (** A variable is only tested again when it is a bit array. *)
  Lemma way_once fl n L v c es : way fl n L ((v, c) :: es) -> var_type v <> CBitArray -> forall u k, In (u, k) es -> id u <> id v.
  Proof.
    intros W. remember ((v, c) :: es) as l eqn:E. revert E. induction W as [n L|n n' L L' es' LE SUB W IH|n n' L L' v' c' es' LE ND BL VL CK SUB W IH]; intros E NB u k I; [discriminate|now apply (IH E NB u k)|].
    injection E as -> -> ->. clear IH. destruct (way_low _ _ _ _ W u k I) as ([A|A] & _).
    - destruct (SUB u A) as [J|J].
      + unfold without in J. destruct (var_type v); try congruence; apply filter_In in J as [_ J]; now apply negb_true_iff, Nat.eqb_neq in J.
      + destruct CK as (_ & _ & BV & _). specialize (BV u J). specialize (BL v VL). lia.
    - specialize (BL v VL). lia.
  Qed.
  (** The variables of a way have values of their types. *)
  Lemma way_typed fl n L es st : way fl n L es -> typed st L -> sat st es -> typed st (way_vars L es).
  Proof.
    unfold way_vars. induction 1 as [n L|n n' L L' es LE SUB W IH|n n' L L' v c es LE ND BL VL CK SUB W IH]; intros TY S.
    - now rewrite app_nil_r.
    - intros w I. apply in_app_iff in I as [I|I]; [now apply TY|]. apply IH; [intros u J; apply TY; auto|assumption|apply in_or_app; now right].
    - inversion S as [|? ? (bnd & P & B) S']; subst. cbn [fst snd] in *.
      destruct (passes_ok env outside float_is finite _ _ _ _ _ _ _ CK (TY v VL) P) as (vals & -> & FV).
      assert (typed st (check_vars c)) as TC.
      { clear - B FV. intros w I. revert vals FV B. induction (check_vars c) as [|u us IH]; intros vals FV B; [destruct I|].
        cbn in FV. inversion FV as [|x t xs ts H F]; subst. cbn in B. inversion B as [|? ? E B']; subst. cbn in E.
        destruct I as [->|I]; [now rewrite E|]. now apply (IH I xs). }
      intros w I. cbn in I. rewrite !in_app_iff in I. destruct I as [I|[I|I]]; [now apply TY|now apply TC|].
      apply IH; [|assumption|apply in_or_app; now right]. intros u J. destruct (SUB u J) as [K|K]; [apply TY; now apply in_without in K|now apply TC].
  Qed.

  (** ** Checks and values *)
  (** What a value is when a check of its parts passes. *)
  Definition composed (c : check) (vals : list val) (x : val) : Prop :=
    match c with
    | IsTuple _ _ => x = VTuple vals
    | IsVariant _ i _ _ => x = VVariant i vals
    | IsEmptyList => x = VList []
    | IsNonEmptyList _ _ => exists y ys, vals = [y; VList ys] /\ x = VList (y :: ys)
    | _ => True
    end.
  Lemma bound_all (st : store) : forall vs vals, length vals = length vs -> Forall (fun q => st (fst q) = snd q) (combine (map id vs) vals) ->
    map (fun v => st (id v)) vs = vals.
  Proof.
    induction vs as [|v vs IH]; intros [|x vals] L F; try discriminate; [reflexivity|]. cbn in *. inversion F; subst. cbn in *. f_equal; [assumption|]. apply IH; [lia|assumption].
  Qed.
  Lemma passes_composed ty c x bnd (st : store) : tcheck ty c -> has_type x ty -> passes c x = Some bnd -> Forall (fun q => st (fst q) = snd q) bnd ->
    composed c (map (fun v => st (id v)) (check_vars c)) x.
  Proof.
    intros K H P F. destruct (passes_typed env outside float_is finite _ _ _ _ K H P) as (vals & E & FV). rewrite E in F.
    pose proof (Forall2_len _ _ _ FV) as LN. rewrite map_length in LN. rewrite (bound_all st _ _ LN F).
    destruct K as [z|z|s T|s r T E1|ts vs E1|t|t f r E1 E2|m n args inferred ks i k mt ls vs M N E1 LS]; cbn [composed check_vars] in *; auto.
    - destruct (typed_tuple env _ _ H) as (xs & -> & F2). cbn in P. injection P as <-. f_equal. apply Forall2_len in F2. rewrite <- E1, map_length in F2.
      clear - E F2 LN. revert xs vals E F2 LN. induction vs as [|v vs IH]; intros [|x xs] [|y ys] E L1 L2; try discriminate; [reflexivity|]. cbn in *. injection E as -> E. f_equal. apply IH; auto.
    - destruct (typed_list env _ _ H) as (xs & -> & _). cbn in P. now destruct xs.
    - destruct (typed_list env _ _ H) as (xs & -> & _). cbn in P. destruct xs as [|y ys]; [discriminate|]. exists y, ys. injection P as <-.
      destruct vals as [|a [|b [|]]]; try discriminate. cbn in E. injection E as -> ->. auto.
    - destruct (named_values env _ _ _ _ _ _ _ _ M N H) as (j & k' & xs & -> & N' & F2 & _). cbn in P.
      destruct (Nat.eq_dec i j) as [<-|]; [|discriminate]. injection P as <-. rewrite N in N'. injection N' as <-. f_equal. apply Forall2_len in F2. rewrite <- E1, map_length in F2.
      clear - E F2 LN. revert xs vals E F2 LN. induction vs as [|v vs IH]; intros [|x xs] [|y ys] E L1 L2; try discriminate; [reflexivity|]. cbn in *. injection E as -> E. f_equal. apply IH; auto.
  Qed.

  Definition plain (c : check) : Prop := match c with IsStringPrefix _ _ | IsBitArray _ => False | _ => True end.
  Lemma compose ty c vals : tcheck ty c -> plain c ->
    (forall m nm args j, ty = CNamed m nm args (Some j) -> forall mt i ls vs, c = IsVariant mt i ls vs -> i = j) ->
    Forall2 has_type vals (map var_type (check_vars c)) ->
    exists x, has_type x ty /\ passes c x = Some (combine (map id (check_vars c)) vals).
  Proof.
    intros K PL INF F. destruct K as [z|z|s T|s r T E1|ts vs E1|t|t f r E1 E2|m n args inferred ks i k mt ls vs M N E1 LS]; cbn [check_vars map plain] in *.
    - exists (VInt z). split; [constructor|]. inversion F; subst. cbn. now destruct (Z.eq_dec z z).
    - exists (VFloat z). split; [constructor|]. inversion F; subst. cbn. now destruct (N.eq_dec z z).
    - exists (VString (text_of s)). split; [constructor|]. inversion F; subst. cbn [CaseSpec.passes]. now destruct (list_eq_dec N.eq_dec (text_of s) (text_of s)).
    - destruct PL.
    - exists (VTuple vals). subst ts. split; [now constructor|]. reflexivity.
    - exists (VList []). inversion F; subst. split; [constructor; constructor|reflexivity].
    - inversion F as [|x ? xs ? H1 F1]; subst. inversion F1 as [|y ? ys ? H2 F2]; subst. inversion F2; subst. rewrite E2 in H2.
      destruct (typed_list env _ _ H2) as (zs & -> & FZ). exists (VList (x :: zs)). split; [|reflexivity]. constructor. now constructor.
    - destruct (mode_named env _ _ _ _ _ _ M) as (_ & tv & G & [[-> _]| ->]); [destruct i; discriminate|].
      rewrite nth_error_map in N. destruct (nth_error (tv_variants tv) i) as [k0|] eqn:NK; [|discriminate]. injection N as <-.
      exists (VVariant i vals). split.
      + eapply has_variant; [exact G|exact NK| |].
        * intros j ->. now apply (INF m n args j eq_refl mt i ls vs).
        * rewrite E1, specialise_fields in F. exact F.
      + cbn. now destruct (Nat.eq_dec i i).
  Qed.
  (** Two checks that pass are of the same kind. *)
  Lemma exclusive ty c c' x : tcheck ty c -> tcheck ty c' -> plain c -> plain c' -> has_type x ty ->
    passes c x <> None -> passes c' x <> None -> check_kind c = check_kind c'.
  Proof.
    intros K K' PL PL' H P P'. destruct K; inversion K'; subst; cbn [plain] in *; try contradiction; try reflexivity; cbn [check_kind].
    - destruct (typed_int env _ H) as [a ->]. cbn in P, P'. destruct (Z.eq_dec z a), (Z.eq_dec z0 a); congruence.
    - destruct (typed_float env _ H) as [a ->]. cbn in P, P'. destruct (N.eq_dec z a), (N.eq_dec z0 a); congruence.
    - destruct (typed_string env _ H) as [a ->]. cbn [CaseSpec.passes] in P, P'. destruct (list_eq_dec N.eq_dec (text_of s) a) as [E1|]; [|congruence]. destruct (list_eq_dec N.eq_dec (text_of s0) a) as [E2|]; [|congruence].
      do 2 f_equal. apply tidy_inj; auto. unfold text_of in *. congruence.
    - destruct (typed_list env _ _ H) as (xs & -> & _). cbn in P, P'. destruct xs; congruence.
    - destruct (typed_list env _ _ H) as (xs & -> & _). cbn in P, P'. destruct xs; congruence.
    - inversion H; subst; cbn in P, P'; try congruence. destruct (Nat.eq_dec i i1), (Nat.eq_dec i0 i1); congruence.
  Qed.

  (** ** Each way is followed *)
  Lemma furnished_vars ty c : tcheck ty c -> furnished env ty -> Forall (fun w => furnished env (var_type w)) (check_vars c).
  Proof.
    assert (forall ts vs, map var_type vs = ts -> (forall t, In t ts -> furnished env t) -> Forall (fun w => furnished env (var_type w)) vs) as ALL.
    { clear. intros ts vs <- H. apply Forall_forall. intros w I. apply H. now apply in_map. }
    intros K R. destruct K as [z|z|s T|s r T E1|ts vs E1|t|t f r E1 E2|m n args inferred ks i k mt ls vs M N E1 LS]; cbn [check_vars]; try constructor.
    - rewrite E1. exact R.
    - constructor.
    - apply (ALL ts); [assumption|]. intros t I u C. apply R. now apply component_tuple with t.
    - rewrite E1. intros u C. apply R. now constructor.
    - constructor; [|constructor]. now rewrite E2.
    - apply (ALL (map snd (c_parameters k))); [assumption|]. destruct (mode_named env _ _ _ _ _ _ M) as (_ & tv & G & [[-> _]| ->]); [destruct i; discriminate|].
      rewrite nth_error_map in N. destruct (nth_error (tv_variants tv) i) as [k0|] eqn:NK; [|discriminate]. injection N as <-. rewrite specialise_fields.
      intros t I u C. apply R. apply component_field with tv k0 t; auto. now apply nth_error_In in NK.
  Qed.
  Lemma furnished_values vs : Forall (fun w => furnished env (var_type w)) vs -> exists vals, Forall2 has_type vals (map var_type vs).
  Proof.
    induction 1 as [|w vs H F [vals IH]]; [exists []; constructor|]. destruct (H (var_type w)) as [x X]; [constructor|].
    exists (x :: vals). now constructor.
  Qed.
  Lemma avoid ty cs : mode_of env ty = Done Infinite -> Forall (tcheck ty) cs -> Forall plain cs -> furnished env ty ->
    exists x, has_type x ty /\ forall c, In c cs -> passes c x = None.
  Proof.
    intros M K PL R.
    assert (cs = [] -> exists x, has_type x ty /\ forall c, In c cs -> passes c x = None) as E0.
    { intros ->. destruct (R ty) as [x X]; [constructor|]. exists x. split; [assumption|]. intros c []. }
    destruct ty; try discriminate M; try (apply E0; destruct cs as [|c0 cs0]; [reflexivity|inversion K as [|? ? TC0 ?]; inversion TC0]; fail).
    - assert (exists z, forall c, In c cs -> forall z', c = IsInt z' -> (z' < z)%Z) as [z Z].
      { clear. induction cs as [|c cs [z IH]]; [exists 0%Z; intros c []|]. destruct c as [z'| | | | | | | |]; [|exists z; intros c [<-|I] z'' E; [discriminate|now apply (IH c I)]..].
        exists (Z.max z (z' + 1)). intros c [<-|I] z'' E; [injection E as ->; lia|]. specialize (IH c I z'' E). lia. }
      exists (VInt z). split; [constructor|]. intros c I. rewrite Forall_forall in K. specialize (K c I). inversion K; subst. specialize (Z _ I _ eq_refl).
      cbn. destruct (Z.eq_dec z0 z); [lia|reflexivity].
    - assert (exists z, forall c, In c cs -> forall z', c = IsFloat z' -> (z' < z)%N) as [z Z].
      { clear. induction cs as [|c cs [z IH]]; [exists 0%N; intros c []|]. destruct c as [|z'| | | | | | |]; [exists z; intros c [<-|I] z'' E; [discriminate|now apply (IH c I)]| |exists z; intros c [<-|I] z'' E; [discriminate|now apply (IH c I)]..].
        exists (N.max z (z' + 1)). intros c [<-|I] z'' E; [injection E as ->; lia|]. specialize (IH c I z'' E). lia. }
      exists (VFloat z). split; [constructor|]. intros c I. rewrite Forall_forall in K. specialize (K c I). inversion K; subst. specialize (Z _ I _ eq_refl).
      cbn. destruct (N.eq_dec z0 z); [lia|reflexivity].
    - assert (exists s : text, forall c, In c cs -> forall s', c = IsString s' -> (length (text_of s') < length s)) as [s S].
      { clear. induction cs as [|c cs [s IH]]; [exists []; intros c []|]. destruct c as [| |s'| | | | | |];
          try (exists s; intros c [<-|I] z'' E; [discriminate|now apply (IH c I)]).
        exists (0%N :: text_of s' ++ s). intros c [<-|I] z'' E; [injection E as ->; cbn [length]; rewrite app_length; lia|]. specialize (IH c I z'' E). cbn [length]. rewrite app_length. lia. }
      exists (VString s). split; [constructor|]. intros c I. rewrite Forall_forall in K, PL. specialize (K c I). specialize (PL c I). inversion K; subst; [|destruct PL]. specialize (S _ I _ eq_refl).
      cbn [CaseSpec.passes]. destruct (list_eq_dec N.eq_dec (text_of s0) s); [subst; lia|reflexivity].
    - cbn in M. destruct (get_constructors_for_type env module name); discriminate.
  Qed.

  Lemma same_id L a b : NoDup (map id L) -> In a L -> In b L -> id a = id b -> a = b.
  Proof.
    clear. induction L as [|c L IH]; cbn; [intros _ []|]. intros N I J E. inversion N; subst. destruct I as [->|I], J as [->|J]; auto.
    - destruct H1. rewrite E. now apply in_map.
    - destruct H1. rewrite <- E. now apply in_map.
  Qed.
  Definition put (i : nat) (x : val) (st : store) : store := fun j => if Nat.eqb j i then x else st j.
  Lemma put_same i x st : put i x st i = x.
  Proof. unfold put. now rewrite Nat.eqb_refl. Qed.
  Lemma put_other i x st j : j <> i -> put i x st j = st j.
  Proof. unfold put. intros N. destruct (Nat.eqb_spec j i); [contradiction|reflexivity]. Qed.
  Lemma sat_agree st st' es : (forall v c, In (v, c) es -> st (id v) = st' (id v) /\ forall w, In w (check_vars c) -> st (id w) = st' (id w)) ->
    (forall v c, In (v, c) es -> has_type (st (id v)) (var_type v) /\ exists fl n n', check_ok fl n n' v c) -> sat st es -> sat st' es.
  Proof.
    intros AG TY S. unfold CaseFalls.sat in *. rewrite Forall_forall in *. intros [v c] I. destruct (S _ I) as (bnd & P & B). cbn [fst snd] in *.
    destruct (AG v c I) as [A1 A2]. destruct (TY v c I) as (T & fl & n & n' & CK). exists bnd. split; [now rewrite <- A1|].
    destruct (passes_ok env outside float_is finite _ _ _ _ _ _ _ CK T P) as (vals & -> & _). rewrite Forall_forall in *.
    intros [i x] J. specialize (B _ J). cbn in *. rewrite <- B. apply in_combine_l, in_map_iff in J as (w & <- & J). symmetry. now apply A2.
  Qed.

  Lemma plain_ok fl n n' v c : slices fl = false -> check_ok fl n n' v c -> tcheck (var_type v) c /\ plain c.
  Proof.
    intros SF ([TC|[EB [t ->]]] & _ & _ & _ & AL); [|cbn in AL; congruence]. split; [assumption|]. destruct c; cbn in *; auto; congruence.
  Qed.
  Lemma plain_bits fl n n' v c : slices fl = false -> check_ok fl n n' v c -> var_type v <> CBitArray.
  Proof. intros SF CK E. destruct (plain_ok _ _ _ _ _ SF CK) as [TC _]. rewrite E in TC. inversion TC. Qed.
  Lemma without_other v L w : var_type v <> CBitArray -> In w (without v L) -> id w <> id v.
  Proof. unfold without. destruct (var_type v); try congruence; intros _ I; apply filter_In in I as [_ I]; now apply negb_true_iff, Nat.eqb_neq in I. Qed.

  (** The values before a test, given those after. *)
  Lemma before_test fl n n' L v c es st : slices fl = false -> NoDup (map id L) -> (forall w, In w L -> id w < n) -> In v L -> n <= n' -> check_ok fl n n' v c ->
    typed st (without v L ++ check_vars c) -> way fl n' (without v L ++ check_vars c) es -> sat st es ->
    exists x bnd, let st' := put (id v) x st in
      typed st' L /\ sat st' ((v, c) :: es) /\ passes c x = Some bnd /\
      (forall w, In w (without v L ++ check_vars c) -> st (id w) = bind_all bnd st' (id w)) /\
      (forall w, In w (without v L) -> st (id w) = st' (id w)).
  Proof.
    intros SF ND BL VL LE CK TY W S. pose proof (plain_bits _ _ _ _ _ SF CK) as NB. destruct (plain_ok _ _ _ _ _ SF CK) as [TC PL].
    set (vals := map (fun w => st (id w)) (check_vars c)). pose proof CK as (_ & FR & BV & INF & _).
    assert (Forall2 has_type vals (map var_type (check_vars c))) as FV.
    { assert (typed st (check_vars c)) as T by (intros w I; apply TY, in_or_app; now right). clear - T. unfold vals. induction (check_vars c) as [|w ws IH]; constructor; [apply T; now left|]. apply IH. intros u I. apply T. now right. }
    destruct (compose _ c vals TC PL INF FV) as (x & HX & PX).
    set (bnd := combine (map id (check_vars c)) vals) in *. exists x, bnd. intros st'.
    assert (forall w, In w (without v L) -> st (id w) = st' (id w)) as AW.
    { intros w I. unfold st'. rewrite put_other; [reflexivity|now apply (without_other v L)]. }
    assert (forall w, In w (check_vars c) -> st (id w) = st' (id w)) as AC.
    { intros w I. unfold st'. rewrite put_other; [reflexivity|]. specialize (BV w I). specialize (BL v VL). lia. }
    assert (typed st' L) as TY'.
    { intros w I. destruct (Nat.eq_dec (id w) (id v)) as [E|E].
      - assert (w = v) as -> by (apply (same_id L); auto). unfold st'. now rewrite put_same.
      - rewrite <- AW; [|now apply other_without]. apply TY, in_or_app. left. now apply other_without. }
    assert (forall q, In q bnd -> st' (fst q) = snd q) as BN.
    { intros [i y] I. cbn. unfold bnd, vals in I. clear - I AC. induction (check_vars c) as [|w ws IH]; [destruct I|]. cbn in I. destruct I as [[= <- <-]|I].
      - symmetry. apply AC. now left.
      - apply IH; [intros u J; apply AC; now right|assumption]. }
    split; [assumption|]. split; [|split; [assumption|split; [|assumption]]].
    - constructor.
      + exists bnd. cbn [fst snd]. unfold st' at 1. rewrite put_same. split; [assumption|]. now apply Forall_forall.
      + apply (sat_agree st); [| |assumption].
        * intros u k I. destruct (way_low _ _ _ _ W u k I) as (A & B & _).
          assert (forall i, i <> id v -> st i = st' i) as AO by (intros i N; unfold st'; now rewrite put_other).
          specialize (BL v VL). split.
          -- apply AO. destruct A as [A|A]; [|lia]. apply in_app_iff in A as [A|A]; [now apply (without_other v L)|]. specialize (BV u A). lia.
          -- intros w J. apply AO. specialize (B w J). lia.
        * intros u k I. destruct (way_low _ _ _ _ W u k I) as (_ & _ & m & m' & _ & _ & C3). split; [|eauto].
          apply (way_typed fl n' (without v L ++ check_vars c) es st W TY S). eapply way_in; eassumption.
    - assert (Forall (fun q => n <= fst q) bnd) as LOW.
      { apply Forall_forall. intros [i y] I. apply in_combine_l, in_map_iff in I as (w & <- & I). now apply BV. }
      intros w I. apply in_app_iff in I as [I|I].
      + rewrite (AW w I). symmetry. apply bind_all_notin. intros J. apply in_map_iff in J as ([i y] & E & J). cbn in E. subst i. rewrite Forall_forall in LOW. specialize (LOW _ J). cbn in LOW.
        apply in_without in I. specialize (BL w I). lia.
      + rewrite (AC w I). symmetry. clear AC.
        apply In_nth_error in I as (j & N).
        pose proof (bound_values (check_vars c) FR vals st' ltac:(unfold vals; now rewrite map_length)) as E. apply (f_equal (fun l => nth_error l j)) in E.
        rewrite nth_error_map, N in E. unfold vals in E at 2. rewrite nth_error_map, N in E. cbn in E. injection E as E. fold bnd in E. rewrite E.
        unfold st'. rewrite put_other; [reflexivity|]. apply nth_error_In in N. specialize (BV w N). specialize (BL v VL). lia.
  Qed.

  Theorem way_followed fl n L d : slices fl = false -> wfd fl n L d -> NoDup (map id L) -> forall es, path d es -> Forall (fun w => furnished env (var_type w)) L ->
    exists st, typed st L /\ sat st es /\ run d st = None.
  Proof.
    intros SF. induction 1 as [n L b|n L|n L g b d W IH|n n' L v cs fb fc ND BL VL LE NK CK INF FIN WC IHC WF IHF]; intros NDL es P R.
    - inversion P.
    - inversion P; subst. destruct (furnished_values _ R) as (vals & FV). exists (bind_all (combine (map id L) vals) (fun _ => VOther 0)).
      split; [|split; [constructor|reflexivity]]. pose proof (Forall2_len _ _ _ FV) as LN. rewrite map_length in LN.
      pose proof (bound_values L NDL vals (fun _ => VOther 0) LN) as E. intros w I. apply In_nth_error in I as (j & N).
      apply (f_equal (fun l => nth_error l j)) in E. rewrite nth_error_map, N in E. cbn in E. symmetry in E.
      destruct (Forall2_nth _ _ _ FV j (var_type w)) as (y & N' & H); [now rewrite nth_error_map, N|]. rewrite E in N'. injection N' as ->. exact H.
    - inversion P; subst. now apply IH.
    - assert (Forall (fun w => furnished env (var_type w)) (without v L)) as RW.
      { rewrite Forall_forall in *. intros w I. apply R. now apply in_without in I. }
      pose proof (proj1 (Forall_forall _ _) R v VL) as RV. rewrite Forall_forall in CK.
      assert (forall c, In c (map fst cs ++ fallback_checks fc) -> NoDup (map id (without v L ++ check_vars c)) /\ Forall (fun w => furnished env (var_type w)) (without v L ++ check_vars c)) as LV.
      { intros c I. pose proof (CK c I) as (_ & FR & BV & _). split.
        - eapply live_nodup; eauto.
        - apply Forall_app. split; [assumption|]. apply (furnished_vars (var_type v)); [|assumption]. eapply plain_ok; eauto. }
      assert (forall l1 c l2 x, map fst cs ++ fallback_checks fc = l1 ++ c :: l2 -> has_type x (var_type v) -> passes c x <> None -> forall c', In c' l1 \/ In c' l2 -> passes c' x = None) as EX.
      { intros l1 c l2 x E HX PX c' I. destruct (passes c' x) as [b|] eqn:PC; [|reflexivity]. exfalso. rewrite E in CK, NK.
        assert (In c' (l1 ++ c :: l2)) as IC' by (rewrite in_app_iff; cbn; tauto).
        destruct (plain_ok _ _ _ _ _ SF (CK c (in_elt _ _ _))) as [T1 P1]. destruct (plain_ok _ _ _ _ _ SF (CK c' IC')) as [T2 P2].
        assert (check_kind c = check_kind c') as KE by (eapply exclusive; eauto; congruence).
        rewrite map_app in NK. cbn in NK. apply NoDup_remove_2 in NK. apply NK. rewrite KE, <- map_app. apply in_map. now apply in_app_iff. }
      assert (forall c bnd x st, In c (fallback_checks fc) -> has_type x (var_type v) -> passes c x = Some bnd -> st (id v) = x ->
        pick outside float_is finite cs (st (id v)) = None) as PN.
      { intros c bnd x st IC HX PX ->. apply pick_none. intros c' I'. apply in_split in IC as (l1 & l2 & E).
        apply (EX (map fst cs ++ l1) c l2 x); [now rewrite E, app_assoc|assumption|congruence|]. left. apply in_or_app. now left. }
      inversion P as [| |v' cs' fb' fc' c d es' IC PD|v' cs' fb' es' PF|v' cs' fb' fc' c es' IC PF]; subst.
      + assert (In c (map fst cs ++ fallback_checks fc)) as IC' by (apply in_or_app; left; apply in_map_iff; exists (c, d); auto).
        destruct (LV c IC') as [N1 R1]. destruct (IHC c d IC N1 es' PD R1) as (st & TY & S & RN).
        pose proof (path_way _ _ _ _ (WC c d IC) es' PD) as W.
        destruct (before_test fl n n' L v c es' st SF ND BL VL LE (CK c IC') TY W S) as (x & bnd & TY' & S' & PX & AG & _).
        exists (put (id v) x st). split; [assumption|]. split; [assumption|]. rewrite run_switch, put_same.
        apply in_split in IC as (l1 & l2 & ->). rewrite (pick_here outside float_is finite l1 c d l2 x bnd); [|intros c' I'|assumption].
        * eapply run_ext; [apply (WC c d), in_elt|exact TY|exact AG|exact RN].
        * apply (EX (map fst l1) c (map fst l2 ++ fallback_checks fc) x); [rewrite map_app, <- app_assoc; reflexivity| |congruence|now left].
          specialize (TY' v VL). now rewrite put_same in TY'.
      + cbn [fallback_checks fallback_vars] in *. rewrite !app_nil_r in *.
        destruct (live_nodup v L [] n n' ND BL LE (NoDup_nil _)) as [N1 _]; [intros w []|]. rewrite app_nil_r in N1.
        destruct (IHF N1 es PF RW) as (st & TY & S & RN). pose proof (path_way _ _ _ _ WF es PF) as W.
        assert (var_type v = CBitArray \/ var_type v <> CBitArray) as [B|NB] by (destruct (var_type v); (now left) || (right; discriminate)).
        * assert (cs = []) as ->. { destruct cs as [|[c d] cs]; [reflexivity|]. destruct (plain_bits _ _ _ _ _ SF (CK c (or_introl eq_refl)) B). }
          exists st. split; [|split; [assumption|rewrite run_switch; exact RN]]. intros w I. apply TY. unfold without. rewrite B. exact I.
        * destruct (avoid (var_type v) (map fst cs)) as (x & HX & NX); [now apply INF|apply Forall_forall; intros c I; eapply plain_ok; eauto|apply Forall_forall; intros c I; eapply plain_ok; eauto|assumption|].
          assert (forall i, i <> id v -> st i = put (id v) x st i) as AO by (intros i N; now rewrite put_other).
          pose proof (BL v VL) as LV'. exists (put (id v) x st). split; [|split].
          -- intros w I. destruct (Nat.eq_dec (id w) (id v)) as [E|E].
             ++ assert (w = v) as -> by (apply (same_id L); auto). now rewrite put_same.
             ++ rewrite <- AO by assumption. apply TY. now apply other_without.
          -- apply (sat_agree st); [| |assumption]; intros u k I; destruct (way_low _ _ _ _ W u k I) as (A & BB & m & m' & _ & _ & C3).
             ++ split; [apply AO; destruct A as [A|A]; [now apply (without_other v L)|lia]|]. intros w J. apply AO. specialize (BB w J). lia.
             ++ split; [|eauto]. apply (way_typed fl n' (without v L) es st W TY S). eapply way_in; eassumption.
          -- rewrite run_switch, put_same. rewrite (proj2 (pick_none outside float_is finite cs x) NX).
             eapply run_ext; [exact WF|exact TY| |exact RN]. intros w I. apply AO. now apply (without_other v L).
      + assert (In c (map fst cs ++ fallback_checks fc)) as IC' by (apply in_or_app; now right). destruct (LV c IC') as [N1 R1].
        assert (fc = FallbackRuntimeCheck c \/ exists ign, fc = CatchAll ign) as [->|[ign ->]].
        { destruct fc as [|c'|ign]; [destruct IC|destruct IC as [<-|[]]; now left|right; now exists ign]. }
        * cbn [fallback_vars] in *. destruct (IHF N1 es' PF R1) as (st & TY & S & RN). pose proof (path_way _ _ _ _ WF es' PF) as W.
          destruct (before_test fl n n' L v c es' st SF ND BL VL LE (CK c IC') TY W S) as (x & bnd & TY' & S' & PX & AG & _).
          exists (put (id v) x st). split; [assumption|]. split; [assumption|]. rewrite run_switch.
          rewrite (PN c bnd x (put (id v) x st) IC); [rewrite put_same, PX|specialize (TY' v VL); now rewrite put_same in TY'|assumption|apply put_same].
          eapply run_ext; [exact WF|exact TY|exact AG|exact RN].
        * cbn [fallback_vars] in *. rewrite app_nil_r in *.
          destruct (live_nodup v L [] n n' ND BL LE (NoDup_nil _)) as [N2 _]; [intros w []|]. rewrite app_nil_r in N2.
          destruct (IHF N2 es' PF RW) as (st0 & TY0 & S0 & RN0). pose proof (path_way _ _ _ _ WF es' PF) as W0.
          apply Forall_app in R1 as [_ R1]. destruct (furnished_values _ R1) as (vals & FV). pose proof (Forall2_len _ _ _ FV) as LN. rewrite map_length in LN.
          pose proof (CK c IC') as (_ & FR & BV & _).
          set (st := bind_all (combine (map id (check_vars c)) vals) st0).
          assert (forall i, (i < n \/ n' <= i) -> st0 i = st i) as AO.
          { intros i O. symmetry. apply bind_all_notin. intros J. apply in_map_iff in J as ([k y] & E & J). cbn in E. subst k.
            apply in_combine_l, in_map_iff in J as (w & <- & J). specialize (BV w J). lia. }
          assert (forall w, In w (without v L) -> st0 (id w) = st (id w)) as AW.
          { intros w I. apply AO. left. apply BL. now apply in_without in I. }
          assert (typed st (without v L ++ check_vars c)) as TY.
          { intros w I. apply in_app_iff in I as [I|I]; [rewrite <- (AW w I); now apply TY0|].
            apply In_nth_error in I as (j & N). pose proof (bound_values (check_vars c) FR vals st0 LN) as E. apply (f_equal (fun l => nth_error l j)) in E.
            rewrite nth_error_map, N in E. cbn in E. symmetry in E. fold st in E. destruct (Forall2_nth _ _ _ FV j (var_type w)) as (y & N' & H); [now rewrite nth_error_map, N|].
            rewrite E in N'. injection N' as ->. exact H. }
          assert (sat st es') as S.
          { apply (sat_agree st0); [| |assumption]; intros u k I; destruct (way_low _ _ _ _ W0 u k I) as (A & BB & m & m' & _ & _ & C3).
            - split; [destruct A as [A|A]; [now apply AW|apply AO; now right]|]. intros w J. apply AO. right. now apply BB.
            - split; [|eauto]. apply (way_typed fl n' (without v L) es' st0 W0 TY0 S0). eapply way_in; eassumption. }
          assert (way fl n' (without v L ++ check_vars c) es') as W by (eapply way_skip; [apply le_n| |exact W0]; intros w I; apply in_or_app; now left).
          destruct (before_test fl n n' L v c es' st SF ND BL VL LE (CK c IC') TY W S) as (x & bnd & TY' & S' & PX & _ & AG).
          exists (put (id v) x st). split; [assumption|]. split; [assumption|]. rewrite run_switch.
          rewrite (PN c bnd x (put (id v) x st) IC); [|specialize (TY' v VL); now rewrite put_same in TY'|assumption|apply put_same].
          eapply run_ext; [exact WF|exact TY0| |exact RN0]. intros w I. rewrite (AW w I). now apply AG.
  Qed.
End Ways.
