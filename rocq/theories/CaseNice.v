(** What is left of the checks keeps the invariants. *)
From Coq Require Import ZArith NArith Bool List Lia Permutation.
From Verif Require Import Text Strings StringsSpec Bits BitsSpec BitsProofs Case CaseSpec CaseText CasePure CaseSem CaseStatic CaseMove CaseResidual CaseDeriv.
Import ListNotations.
Local Open Scope nat_scope.

Lemma split_same_length {A} (f : A -> nat) (a b : list A) : forall u c u' d, a ++ u :: b = c ++ u' :: d ->
  NoDup (map f (a ++ u :: b)) -> f u' = f u -> length a = length c.
Proof.
  induction a as [|x a IH]; intros u [|y c] u' d E N F; cbn in *; [reflexivity| | |].
  - injection E as -> ->. inversion N as [|? ? NI _]; subst. exfalso. apply NI. rewrite <- F. apply in_map_iff.
    exists u'. split; [reflexivity|apply in_elt].
  - injection E as E3 E4. subst. inversion N as [|? ? NI _]; subst. exfalso. apply NI. rewrite F. apply in_map_iff.
    exists u. split; [reflexivity|apply in_elt].
  - injection E as -> E. inversion N; subst. f_equal. eapply IH; eassumption.
Qed.
Lemma starts_with_app w a b : starts_with a b = true -> starts_with (w ++ a) (w ++ b) = true.
Proof. rewrite !starts_with_iff. intros [r ->]. exists r. now rewrite app_assoc. Qed.

Section Nice.
  Context (env : environment)
          (outside : text -> Z)
          (float_is : text -> endianness -> list bool -> bool)
          (finite : endianness -> list bool -> bool).
  Notation okt := (okt env outside float_is finite).
  Notation tcheck := (tcheck env).
  Context (pv : cvar).

  Definition residual (c : check) (p : tree) (new : list (cvar * tree)) : Prop :=
    okt true (var_type pv) p /\ refutable (un p) /\ pushable c (un p) /\ pnew_checks pv (un p) c = Done new.

  Lemma new_clash c p new q new' u p' o u' q' k sibs : tcheck (var_type pv) c -> fresh_vars c ->
    residual c p new -> residual c q new' ->
    Permutation new ((u, p') :: o) -> In (u', q') new' -> id u' = id u -> tclash k p' q' sibs ->
    exists sibs0, tclash k p q sibs0 /\ (Forall (fun t => irref t = true) sibs0 ->
        Forall (fun q => irref (snd q) = true) o /\ Forall (fun t => irref t = true) sibs).
  Proof.
    intros K FV (OP & RP & PP & EP) (OQ & RQ & PQ & EQ) PE IN EI C.
    set (ty := var_type pv) in *. clearbody ty.
    assert (forall s a b, ~ tclash k (T (AStringPrefixSlice s a b)) q' sibs) as NSL.
    { intros s a b H. remember (T (AStringPrefixSlice s a b)) as x eqn:E. clear - H E. induction H; try discriminate; auto. }
    assert (forall s a b, ~ tclash k p' (T (AStringPrefixSlice s a b)) sibs) as NSR.
    { intros s a b H. remember (T (AStringPrefixSlice s a b)) as x eqn:E. clear - H E. induction H; try discriminate; auto. }
    apply perm_cons_split in PE as (l1 & l2 & E1 & PO). apply in_split in IN as (m1 & m2 & E2). subst new new'.
    assert (map fst (l1 ++ (u, p') :: l2) = check_vars c -> map fst (m1 ++ (u', q') :: m2) = check_vars c -> length (map snd l1) = length (map snd m1)) as LEN.
    { intros A B. rewrite !map_length. rewrite <- A in B.
      rewrite !map_app in B. cbn in B. symmetry in B.
      unfold fresh_vars in FV. rewrite <- A, map_app in FV. cbn in FV.
      rewrite <- (map_length fst l1), <- (map_length fst m1).
      eapply split_same_length; [exact B| |exact EI]. exact FV. }
    assert (forall a b s, Forall (fun t => irref t = true) (map snd l1 ++ map snd l2 ++ s) ->
      a = o -> b = s -> Forall (fun q => irref (snd q) = true) a /\ Forall (fun t => irref t = true) b) as IRR.
    { intros a b s F -> ->. rewrite !Forall_app in F. destruct F as (F1 & F2 & F3). split; [|assumption].
      apply (Permutation_Forall PO). rewrite Forall_app. rewrite !Forall_forall in *. split; intros x I;
        [apply F1|apply F2]; now apply in_map. }
    destruct p as [p], q as [q]. cbn [un] in *.
    destruct p as [|z|f|s|s name rest|s pn rn|n p|n|ps|i un_ nm md ps|a r| |ts]; try (destruct RP; fail).
    - destruct c; cbn in EP; try discriminate; injection EP as EP; destruct l1; discriminate.
    - destruct c; cbn in EP; try discriminate; injection EP as EP; destruct l1; discriminate.
    - (* string *)
      destruct c as [| |s'|w r| | | | |]; cbn in PP; try discriminate.
      { cbn in EP. injection EP as EP. destruct l1; discriminate. }
      inversion K as [| | |? ? TW VR| | | |]; subst. apply starts_with_iff in PP as [rem ->].
      cbn [pnew_checks] in EP. replace (strip_prefix w (w ++ rem)) with (Some rem) in EP by (symmetry; now apply strip_prefix_some).
      injection EP as EP. destruct l1 as [|? [|]]; try discriminate. cbn in EP. injection EP as <- <- <-.
      cbn in PO. apply Permutation_nil in PO as ->.
      destruct q as [|z|f|t|t name rest|t pn rn|n q|n|qs|i un_ nm md qs|a' r'| |ts]; try (destruct RQ; fail); cbn in PQ; try discriminate.
      + apply starts_with_iff in PQ as [rem' ->]. cbn [pnew_checks] in EQ.
        replace (strip_prefix w (w ++ rem')) with (Some rem') in EQ by (symmetry; now apply strip_prefix_some).
        injection EQ as EQ. destruct m1 as [|? [|]]; try discriminate. cbn in EQ. injection EQ as <- <- <-. inversion C.
      + cbn in RQ. subst name. cbn [pnew_checks] in EQ. inversion OQ as [| | | | | |? ? ? ? TQ SR| | | | | |]; subst.
        destruct (strip_prefix w t) as [rem'|] eqn:SP.
        * apply strip_prefix_some in SP as ->. destruct rem' as [|c0 rem'].
          -- injection EQ as EQ. destruct m1 as [|? [|]]; try discriminate. cbn in EQ. injection EQ as <- <- <-.
             destruct SR as [->|[n ->]]; inversion C.
          -- injection EQ as EQ. destruct m1 as [|? [|]]; try discriminate. cbn in EQ. injection EQ as <- <- <-.
             inversion C as [? ? ? ? SW| | | | | | |]; subst. exists []. split; [|intros _; split; constructor].
             constructor. now apply starts_with_app.
        * destruct SR as [->|[n ->]]; cbn [un] in EQ; injection EQ as EQ; destruct m1 as [|? [|]]; try discriminate.
          cbn in EQ. injection EQ as <- <- <-. destruct (NSR _ _ _ C).
    - (* prefix *)
      cbn in RP. subst name. inversion OP as [| | | | | |? ? ? ? TP SR| | | | | |]; subst.
      destruct c as [| |s'|w r| | | | |]; cbn in PP; try discriminate.
      inversion K as [| | |? ? TW VR| | | |]; subst. cbn [pnew_checks] in EP.
      destruct (strip_prefix w s) as [rem|] eqn:SP.
      2: { destruct SR as [->|[n ->]]; cbn [un] in EP; injection EP as EP; destruct l1 as [|? [|]]; try discriminate.
           cbn in EP. injection EP as <- <- <-. destruct (NSL _ _ _ C). }
      apply strip_prefix_some in SP as ->.
      destruct rem as [|c0 rem]; injection EP as EP; destruct l1 as [|? [|]]; try discriminate; cbn in EP; injection EP as <- <- <-.
      { exfalso. clear - SR C. remember rest as x eqn:E. destruct SR as [->|[n ->]].
        - remember (T ADiscard) as y eqn:E2. induction C; try discriminate; auto.
        - remember (T (AVariable n)) as y eqn:E2. induction C; try discriminate; auto. }
      cbn in PO. apply Permutation_nil in PO as ->.
      destruct q as [|z|f|t|t name rest'|t pn rn|n q|n|qs|i un_ nm md qs|a' r'| |ts]; try (destruct RQ; fail); cbn in PQ; try discriminate.
      + apply starts_with_iff in PQ as [rem' ->]. cbn [pnew_checks] in EQ.
        replace (strip_prefix w (w ++ rem')) with (Some rem') in EQ by (symmetry; now apply strip_prefix_some).
        injection EQ as EQ. destruct m1 as [|? [|]]; try discriminate. cbn in EQ. injection EQ as <- <- <-. inversion C.
      + cbn in RQ. subst name. cbn [pnew_checks] in EQ. inversion OQ as [| | | | | |? ? ? ? TQ SR'| | | | | |]; subst.
        destruct (strip_prefix w t) as [rem'|] eqn:SP.
        * apply strip_prefix_some in SP as ->. destruct rem' as [|c1 rem'].
          -- injection EQ as EQ. destruct m1 as [|? [|]]; try discriminate. cbn in EQ. injection EQ as <- <- <-.
             destruct SR' as [->|[n ->]]; inversion C.
          -- injection EQ as EQ. destruct m1 as [|? [|]]; try discriminate. cbn in EQ. injection EQ as <- <- <-.
             inversion C as [|? ? ? ? ? ? SW NE| | | | | |]; subst. exists []. split; [|intros _; split; constructor].
             constructor; [now apply starts_with_app|]. intros E. apply app_inv_head in E. congruence.
        * destruct SR' as [->|[n ->]]; cbn [un] in EQ; injection EQ as EQ; destruct m1 as [|? [|]]; try discriminate.
          cbn in EQ. injection EQ as <- <- <-. destruct (NSR _ _ _ C).
    - (* tuple *)
      destruct c as [| | | |sz vs| | | |]; cbn in PP; try discriminate.
      destruct q as [|z|f|t|t name rest'|t pn rn|n q|n|qs|i un_ nm md qs|a' r'| |ts]; try (destruct RQ; fail); cbn in PQ; try discriminate.
      cbn in EP, EQ. injection EP as EP. injection EQ as EQ.
      inversion K as [| | | |? ? E| | |]; subst.
      inversion OP as [| | | | | | | | |? ? ? F2| | |]; subst. inversion OQ as [| | | | | | | | |? ? ? F3| | |]; subst.
      destruct (combine_spec env outside float_is finite vs _ eq_refl ps F2) as (_ & A2 & A3 & _).
      destruct (combine_spec env outside float_is finite vs _ eq_refl qs F3) as (_ & B2 & B3 & _).
      rewrite EP in *. rewrite EQ in *. specialize (LEN A2 B2). rewrite map_app in A3, B3. cbn in A3, B3.
      exists (map snd l1 ++ map snd l2 ++ sibs). split; [rewrite <- A3, <- B3; now constructor|]. intros F. now apply (IRR _ _ _ F).
    - (* variant *)
      destruct c as [| | | | | |mt j ls vs| |]; cbn in PP; try discriminate. injection PP as ->.
      destruct q as [|z|f|t|t name rest'|t pn rn|n q|n|qs|i' un' nm' md' qs|a' r'| |ts]; try (destruct RQ; fail); cbn in PQ; try discriminate.
      injection PQ as <-. cbn in EP, EQ. injection EP as EP. injection EQ as EQ.
      inversion K as [| | | | | | |m n args inferred ks ? kk ? ? ? M N E]; subst.
      inversion OP as [| | | | | | | | | | | |? ? ? ? ? ks1 ? k1 ? ? ? ? M1 N1 IN1 F2]; subst.
      inversion OQ as [| | | | | | | | | | | |? ? ? ? ? ks2 ? k2 ? ? ? ? M2 N2 IN2 F3]; subst.
      rewrite M in M1. injection M1 as <-. rewrite M in M2. injection M2 as <-. rewrite N in N1. injection N1 as <-. rewrite N in N2. injection N2 as <-.
      destruct (combine_spec env outside float_is finite vs _ E ps F2) as (_ & A2 & A3 & _).
      destruct (combine_spec env outside float_is finite vs _ E qs F3) as (_ & B2 & B3 & _).
      rewrite EP in *. rewrite EQ in *. specialize (LEN A2 B2). rewrite map_app in A3, B3. cbn in A3, B3.
      exists (map snd l1 ++ map snd l2 ++ sibs). split; [rewrite <- A3, <- B3; now constructor|]. intros F. now apply (IRR _ _ _ F).
    - (* list *)
      destruct c as [| | | | | | |f' r'|]; cbn in PP; try discriminate.
      destruct q as [|z|f|t|t name rest'|t pn rn|n q|n|qs|i' un' nm' md' qs|a' r''| |ts]; try (destruct RQ; fail); cbn in PQ; try discriminate.
      cbn in EP, EQ. injection EP as EP. injection EQ as EQ.
      assert (length l1 = length m1) as L.
      { rewrite <- (map_length snd l1), <- (map_length snd m1). apply LEN; [rewrite <- EP|rewrite <- EQ]; reflexivity. }
      destruct l1 as [|x [|y l1]]; destruct m1 as [|x' [|y' m1]]; try discriminate L; cbn in EP, EQ.
      + injection EP as <- <- <-. injection EQ as <- <- <-.
        exists (r :: sibs). split; [now constructor|]. intros F. apply (IRR _ _ sibs); auto.
      + injection EP as <- <- <- <-. injection EQ as <- <- <- <-.
        exists (a :: sibs). split; [now constructor|]. intros F. apply (IRR _ _ sibs); auto.
      + exfalso. injection EP as _ _ EP. destruct l1; discriminate.
    - destruct c; cbn in EP; try discriminate; injection EP as EP; destruct l1; discriminate.
    - destruct c; cbn in PP; try discriminate. inversion K.
  Qed.

  Lemma residual_nice n0 G n c : tcheck (var_type pv) c -> fresh_vars c ->
    (forall v, In v (check_vars c) -> n0 <= id v < n /\ var_type v = G (id v)) ->
    id pv < n -> var_type pv = G (id pv) -> nice env outside float_is finite pv n0 G n (residual c).
  Proof.
    intros K FV B L V.
    assert (forall p new, residual c p new -> good_new env outside float_is finite (var_type pv) pv c (un p) new) as GN.
    { intros [p] new (O & R & PU & E). destruct (new_spec env outside float_is finite _ pv p c O R K PU eq_refl) as (new' & E' & GN).
      cbn in E. rewrite E' in E. injection E as ->. exact GN. }
    constructor.
    - intros p new HR. destruct (GN _ _ HR) as (A1 & A2 & _). apply Forall_forall. intros q I.
      rewrite Forall_forall in A1. specialize (A1 q I).
      destruct A2 as [A2|[->|(s & a & b & ->)]]; [|destruct I|].
      + assert (In (fst q) (check_vars c)) as I2 by (rewrite <- A2; now apply in_map).
        destruct (B _ I2) as [B1 B2]. repeat split; auto; lia.
      + destruct I as [<-|[]]. cbn in *. repeat split; auto.
    - intros p new HR. destruct (GN _ _ HR) as (_ & A2 & _).
      destruct A2 as [A2|[->|(s & a & b & ->)]]; [|constructor|repeat constructor; intros []].
      unfold fresh_vars in FV. rewrite <- A2, map_map in FV. exact FV.
    - intros [p] new HR. now destruct (GN _ _ HR) as (_ & _ & _ & _ & A & _).
    - intros [p] new HR. now destruct (GN _ _ HR) as (_ & _ & A & _).
    - intros [p] new q HR I BD. destruct (GN _ _ HR) as (_ & _ & _ & _ & _ & A & _). cbn in A. eauto.
    - intros. eapply new_clash; eassumption.
  Qed.

  (** Bit arrays. *)
  Definition bits_residual (f : test -> bool) (p : tree) (new : list (cvar * tree)) : Prop :=
    exists ts, p = T (ABitArray ts) /\ okt true (var_type pv) p /\ new = [(pv, T (ABitArray (filter f ts)))].
  Lemma bits_nice n0 G n f : id pv < n -> var_type pv = G (id pv) ->
    nice env outside float_is finite pv n0 G n (bits_residual f).
  Proof.
    intros L V. constructor.
    - intros p new (ts & -> & O & ->). constructor; [|constructor]. cbn. repeat split; auto.
      inversion O as [| | | | | | | |? ? F GD| | | |]; subst. constructor; [|discriminate].
      apply Forall_forall. intros t I. apply filter_In in I as [I _]. rewrite Forall_forall in F. auto.
    - intros p new (ts & -> & O & ->). repeat constructor. intros [].
    - intros p new (ts & -> & O & ->). discriminate.
    - intros p new (ts & -> & O & ->). unfold csize. simpl.
      assert (length (filter f ts) <= length ts) by (clear; induction ts as [|t ts IH]; cbn; [lia|]; destruct (f t); cbn; lia).
      lia.
    - intros p new q (ts & -> & O & ->) [<-|[]] B. cbn in B. inversion B.
    - intros p new q new' u p' o u' q' k sibs (ts & -> & O & ->) _ P _ _ C. exfalso.
      apply Permutation_length_1_inv in P. injection P as -> -> _.
      remember (T (ABitArray (filter f ts))) as x eqn:E. induction C; try discriminate; auto.
  Qed.
End Nice.
