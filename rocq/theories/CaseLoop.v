(** The loop that splits the branches, and what comes out of it. *)
From Coq Require Import ZArith NArith Bool List Lia Permutation.
From Verif Require Import Text Strings StringsSpec Bits BitsSpec BitsProofs Case CaseSpec CaseText CasePure CaseSem CaseStatic CaseMove CaseResidual CaseDeriv CaseNice CaseSplit CaseKinds CaseStringSplit CaseBitSplit.
Import ListNotations.
Local Open Scope nat_scope.

(** ** The known checks *)
Lemma variant_checks_spec ks : forall j x, exists cs x', is_variant_checks j ks x = (cs, x') /\ moves_to x x' /\
  map check_kind cs = map (fun i => Some (KVariant i)) (seq j (length ks)) /\
  NoDup (map id (flat_map check_vars cs)) /\
  (forall v, In v (flat_map check_vars cs) -> variable_id x <= id v < variable_id x') /\
  Forall fresh_vars cs /\
  (forall c, In c cs -> exists i k mt ls vs, c = IsVariant mt (j + i) ls vs /\ nth_error ks i = Some k /\
     map var_type vs = map snd (c_parameters k) /\ ls = labels_from 0 (c_parameters k)).
Proof.
  induction ks as [|k ks IH]; intros j x; cbn [is_variant_checks].
  - exists [], x. split; [reflexivity|]. split; [apply moves_refl|]. split; [reflexivity|]. split; [constructor|].
    split; [intros v []|]. split; [constructor|]. intros c [].
  - destruct (variant_check_spec j k x) as (c & x1 & vs & -> & EC & MV & (FV & B) & M1).
    destruct (IH (S j) x1) as (cs & x2 & -> & M2 & KS & ND & B2 & FVS & IS).
    assert (check_vars c = vs) as CV by now rewrite EC.
    exists (c :: cs), x2. split; [reflexivity|]. split; [exact (moves_trans _ _ _ M1 M2)|].
    split; [cbn [map length seq]; rewrite KS, EC; reflexivity|].
    destruct M1 as (M1 & _ & _), M2 as (M2 & _ & _). split; [|split; [|split]].
    + cbn [flat_map]. rewrite map_app. apply NoDup_app_intro; [exact FV|assumption|].
      intros i I J. apply in_map_iff in I as (v & <- & I). apply in_map_iff in J as (w & E & J).
      specialize (B v I). specialize (B2 w J). lia.
    + intros v I. cbn [flat_map] in I. apply in_app_iff in I as [I|I]; [specialize (B v I)|specialize (B2 v I)]; lia.
    + constructor; assumption.
    + intros c' [<-|I].
      * exists 0, k. eexists _, _, vs. rewrite Nat.add_0_r. split; [exact EC|]. split; [reflexivity|]. split; [assumption|reflexivity].
      * destruct (IS c' I) as (i & k' & mt & ls & ws & E & N & T). exists (S i), k', mt, ls, ws.
        split; [rewrite E; f_equal; lia|]. auto.
Qed.

Lemma index_from_spec cs : forall j, (forall c, In c cs -> check_kind c <> None) -> NoDup (map check_kind cs) ->
  forall k i, get_index k (index_kinds j cs) = Some i <-> j <= i /\ exists c, nth_error cs (i - j) = Some c /\ check_kind c = Some k.
Proof.
  induction cs as [|c cs IH]; intros j K ND k i.
  - cbn. split; [discriminate|]. intros (_ & c & N & _). destruct (i - j); discriminate.
  - inversion ND as [|? ? NI ND']; subst. cbn [index_kinds].
    destruct (check_kind c) as [k0|] eqn:EK; [|destruct (K c (or_introl eq_refl)); assumption].
    rewrite get_index_cons. destruct (kind_eqb k k0) eqn:E.
    + apply kind_eqb_iff in E as ->. split.
      * intros [= <-]. split; [lia|]. exists c. rewrite Nat.sub_diag. auto.
      * intros (L & c' & N & E). f_equal. destruct (i - j) as [|d] eqn:D; [lia|]. exfalso. apply NI. cbn in N.
        apply nth_error_In in N. rewrite <- E. now apply in_map.
    + rewrite (IH (S j)) by (auto; intros c' I; apply K; now right). split.
      * intros (L & c' & N & E'). split; [lia|]. exists c'. split; [|assumption]. now replace (i - j) with (S (i - S j)) by lia.
      * intros (L & c' & N & E'). destruct (i - j) as [|d] eqn:D.
        -- injection N as <-. rewrite EK in E'. injection E' as ->. rewrite (proj2 (kind_eqb_iff k k) eq_refl) in E. discriminate.
        -- split; [lia|]. exists c'. replace (i - S j) with d by lia. auto.
Qed.

Lemma filter_id {A} (f : A -> bool) l : (forall x, In x l -> f x = true) -> filter f l = l.
Proof. induction l as [|a l IH]; intros H; [reflexivity|]. cbn. rewrite (H a) by now left. f_equal. apply IH. intros x I. apply H. now right. Qed.

Lemma from_checks_exinv m cs : (forall c, In c cs -> check_kind c <> None) -> NoDup (map check_kind cs) ->
  (forall k, known m k -> In (Some k) (map check_kind cs)) -> exinv m (from_checks cs).
Proof.
  intros K ND KN. unfold from_checks. rewrite filter_id.
  2:{ intros c I. specialize (K c I). destruct (check_kind c); congruence. }
  pose proof (index_from_spec cs 0 K ND) as IS. split; [|split]; cbn [indices choices fallback].
  - intros k i. rewrite IS, Nat.sub_0_r. split.
    + intros (_ & c & N & E). exists c, []. split; [|assumption]. now apply (map_nth_error (fun c => (c, @nil (branch tree)))) in N.
    + intros (c & l & N & E). split; [lia|]. exists c. split; [|assumption].
      rewrite nth_error_map in N. destruct (nth_error cs i); [|discriminate]. cbn in N. congruence.
  - intros k H. apply KN in H. apply in_map_iff in H as (c & E & I). apply In_nth_error in I as (i & N).
    assert (get_index k (index_kinds 0 cs) = Some i) as -> by (apply IS; split; [lia|]; exists c; rewrite Nat.sub_0_r; auto). discriminate.
  - intros c l I _. apply in_map_iff in I as (c' & [= <- <-] & _). reflexivity.
Qed.

Section Loop.
  Context (env : environment)
          (outside : text -> Z)
          (float_is : text -> endianness -> list bool -> bool)
          (finite : endianness -> list bool -> bool)
          (float_value : text -> val)
          (guards : nat -> list (text * val) -> bool)
          (guards_perm : forall c l m, Permutation l m -> guards c l = guards c m).
  Notation passes := (passes outside float_is finite).
  Notation selected := (selected outside float_is finite float_value guards).
  Notation first_match := (first_match outside float_is finite float_value guards).
  Notation has_type := (has_type env).
  Notation okt := (okt env outside float_is finite).
  Notation okb := (okb env outside float_is finite).
  Notation goodb := (goodb env outside float_is finite).
  Notation badb := (badb env).
  Notation inv := (inv env outside float_is finite).
  Notation tcheck := (tcheck env).
  Notation chosen := (chosen outside float_is finite).
  Notation choose := (choose outside float_is finite).
  Context (pv : cvar) (G0 : nat -> ctype) (n0 : nat).
  Notation static := (static env outside float_is finite pv G0 n0).
  Notation dynamic := (dynamic env outside float_is finite float_value guards pv n0).
  Notation strinv := (strinv pv).
  Notation bitinv := (bitinv env outside float_is finite pv).

  Lemma known_spec m p x : mode_of env (var_type pv) = Done m -> okt true (var_type pv) (T p) -> refutable p ->
    exists cs x', known_checks m x = Done (cs, x') /\ moves_to x x' /\
      Forall (tcheck (var_type pv)) cs /\ Forall fresh_vars cs /\ NoDup (map id (flat_map check_vars cs)) /\
      (forall v, In v (flat_map check_vars cs) -> variable_id x <= id v < variable_id x') /\
      exinv m (from_checks cs) /\ (forall c, In c cs -> check_kind c <> None).
  Proof.
    generalize (var_type pv). intros ty M O R.
    assert (forall x m, (forall k, ~ known m k) -> exists cs x', Done (@nil check, x) = Done (cs, x') /\ moves_to x x' /\
      Forall (tcheck ty) cs /\ Forall fresh_vars cs /\ NoDup (map id (flat_map check_vars cs)) /\
      (forall v, In v (flat_map check_vars cs) -> variable_id x <= id v < variable_id x') /\
      exinv m (from_checks cs) /\ (forall c, In c cs -> check_kind c <> None)) as NK.
    { intros y m' H. exists [], y. split; [reflexivity|]. split; [apply moves_refl|]. split; [constructor|]. split; [constructor|].
      split; [constructor|]. split; [intros v []|]. split; [|intros c []]. apply from_checks_exinv; [intros c []|constructor|].
      intros k K. destruct (H k K). }
    inversion O as [| | |top z|top f|top s TD|top s name r TD SR| |top ts GT GD|top ts ps F|top t|top t a r OA OR|top mo n args inferred ks i kk used name module ps MM NN IN F]; subst; cbn in R; try contradiction.
    - cbn in M. injection M as <-. cbn [known_checks]. apply NK. intros k [].
    - cbn in M. injection M as <-. cbn [known_checks]. apply NK. intros k [].
    - cbn in M. injection M as <-. cbn [known_checks]. apply NK. intros k [].
    - cbn in M. injection M as <-. cbn [known_checks]. apply NK. intros k [].
    - cbn in M. injection M as <-. cbn [known_checks]. apply NK. intros k [].
    - cbn in M. injection M as <-. cbn [known_checks]. destruct (tuple_check_spec ts x) as (vs & x' & -> & MV & (FV & B) & MO).
      exists [IsTuple (length ts) vs], x'. split; [reflexivity|]. split; [assumption|].
      split; [constructor; [now constructor|constructor]|]. split; [constructor; [assumption|constructor]|].
      cbn [flat_map check_vars]. rewrite app_nil_r. split; [exact FV|]. split; [exact B|]. split.
      + apply from_checks_exinv; [intros c [<-|[]]; discriminate|constructor; [intros []|constructor]|].
        intros k ->. now left.
      + intros c [<-|[]]; discriminate.
    - clear NK. assert (m = MList t) as -> by (cbn in M; congruence). cbn [known_checks].
      destruct (list_check_spec t x) as (f & rr & x' & -> & V1 & V2 & (FV & B) & MO).
      eexists [IsEmptyList; IsNonEmptyList f rr], x'. split; [reflexivity|]. split; [assumption|].
      split; [constructor; [constructor|constructor; [now constructor|constructor]]|].
      split; [constructor; [constructor|constructor; [assumption|constructor]]|].
      cbn [flat_map check_vars app]. split; [exact FV|]. split; [exact B|]. split.
      + apply from_checks_exinv; [intros c [<-|[<-|[]]]; discriminate|constructor; [intros [|[]]; discriminate|constructor; [intros []|constructor]]|].
        intros k [->| ->]; [now left|right; now left].
      + intros c [<-|[<-|[]]]; discriminate.
    - clear NK. assert (m = MList t) as -> by (cbn in M; congruence). cbn [known_checks].
      destruct (list_check_spec t x) as (f & rr & x' & -> & V1 & V2 & (FV & B) & MO).
      eexists [IsEmptyList; IsNonEmptyList f rr], x'. split; [reflexivity|]. split; [assumption|].
      split; [constructor; [constructor|constructor; [now constructor|constructor]]|].
      split; [constructor; [constructor|constructor; [assumption|constructor]]|].
      cbn [flat_map check_vars app]. split; [exact FV|]. split; [exact B|]. split.
      + apply from_checks_exinv; [intros c [<-|[<-|[]]]; discriminate|constructor; [intros [|[]]; discriminate|constructor; [intros []|constructor]]|].
        intros k [->| ->]; [now left|right; now left].
      + intros c [<-|[<-|[]]]; discriminate.
    - clear NK. rewrite MM in M. injection M as <-. destruct inferred as [j|]; cbn [known_checks].
      + destruct (nth_error ks j) as [kj|] eqn:NJ; [|apply nth_error_None in NJ; specialize (IN j eq_refl); lia].
        destruct (variant_check_spec j kj x) as (c & x' & vs & -> & EC & MV & (FV & B) & MO).
        exists [c], x'. split; [reflexivity|]. split; [assumption|].
        split; [constructor; [rewrite EC; econstructor; first [eassumption|reflexivity]|constructor]|]. split; [constructor; [assumption|constructor]|].
        cbn [flat_map]. rewrite app_nil_r. split; [exact FV|]. split; [exact B|]. split.
        * apply from_checks_exinv; [intros c' [<-|[]]; rewrite EC; discriminate|constructor; [intros []|constructor]|].
          intros k ->. left. now rewrite EC.
        * intros c' [<-|[]]. rewrite EC. discriminate.
      + destruct (variant_checks_spec ks 0 x) as (cs & x' & -> & MO & KS & ND & B & FVS & IS).
        exists cs, x'. split; [reflexivity|]. split; [assumption|]. split; [|split; [assumption|split; [assumption|split; [assumption|split]]]].
        * apply Forall_forall. intros c I. destruct (IS c I) as (i' & k' & mt & ls & vs & -> & N & T & LS). econstructor; eassumption.
        * apply from_checks_exinv.
          -- intros c I. destruct (IS c I) as (i' & k' & mt & ls & vs & -> & _). discriminate.
          -- rewrite KS. apply FinFun.Injective_map_NoDup; [intros a b [=]; assumption|apply seq_NoDup].
          -- intros k (i' & -> & L). rewrite KS. apply in_map_iff. exists i'. split; [reflexivity|]. apply in_seq. lia.
        * intros c I. destruct (IS c I) as (i' & k' & mt & ls & vs & -> & _). discriminate.
  Qed.

  Lemma index_kinds_in cs : forall j k i, get_index k (index_kinds j cs) = Some i -> exists c, In c cs /\ check_kind c = Some k.
  Proof.
    clear. induction cs as [|c cs IH]; intros j k i; cbn; [discriminate|]. destruct (check_kind c) as [k0|] eqn:E; cbn.
    - destruct (kind_eqb k k0) eqn:K.
      + apply kind_eqb_iff in K as ->. intros _. exists c. auto.
      + intros H. destruct (IH _ _ _ H) as (c' & I & E'). exists c'. auto.
    - intros H. destruct (IH _ _ _ H) as (c' & I & E'). exists c'. auto.
  Qed.
  Lemma known_only m x cs x' : known_checks m x = Done (cs, x') -> only_known m (from_checks cs).
  Proof.
    intros E INF k i H. apply index_kinds_in in H as (c & I & K). destruct m as [|ts|t|ks [j|]]; cbn [known_checks] in E.
    - discriminate INF.
    - destruct (tuple_check_spec ts x) as (vs & x1 & E1 & _). rewrite E1 in E. injection E as <- _. destruct I as [<-|[]]. cbn in K. now injection K as <-.
    - destruct (list_check_spec t x) as (f & r & x1 & E1 & _). rewrite E1 in E. injection E as <- _. destruct I as [<-|[<-|[]]]; injection K as <-; cbn; auto.
    - destruct (nth_error ks j) as [kj|]; [|discriminate]. destruct (variant_check_spec j kj x) as (c1 & x1 & vs & E1 & -> & _). rewrite E1 in E.
      injection E as <- _. destruct I as [<-|[]]. now injection K as <-.
    - destruct (variant_checks_spec ks 0 x) as (cs' & x1 & E1 & _ & KS & _). rewrite E1 in E. injection E as -> _.
      apply (in_map check_kind) in I. rewrite KS, K in I. apply in_map_iff in I as (j & [= <-] & I). apply in_seq in I. exists j. split; [reflexivity|lia].
  Qed.

  Lemma known_static cs x x' : n0 <= variable_id x -> moves_to x x' ->
    Forall (tcheck (var_type pv)) cs -> Forall fresh_vars cs -> NoDup (map id (flat_map check_vars cs)) ->
    (forall v, In v (flat_map check_vars cs) -> variable_id x <= id v < variable_id x') ->
    static [] (from_checks cs) (variable_id x').
  Proof.
    intros LE (M & _ & _) TC FV ND B. split; [lia|]. split; [constructor|]. split; [now left|].
    assert (forall ch, In ch (choices (from_checks (P := tree) cs)) -> exists c, In c cs /\ ch = (c, [])) as IC.
    { intros ch I. unfold from_checks in I. cbn [choices] in I. apply in_map_iff in I as (c & <- & I). apply filter_In in I. exists c. tauto. }
    split.
    - apply Forall_forall. intros ch I. destruct (IC ch I) as (c & _ & ->). now left.
    - exists (fun i => match find (fun v => Nat.eqb (id v) i) (flat_map check_vars cs) with Some v => var_type v | None => G0 i end).
      split.
      + intros i L. destruct (find _ _) as [v|] eqn:F; [|reflexivity]. apply find_some in F as [I E]. apply Nat.eqb_eq in E.
        specialize (B v I). lia.
      + apply Forall_forall. intros ch I. destruct (IC ch I) as (c & IN & ->). rewrite Forall_forall in TC, FV.
        split; [now apply TC|]. split; [now apply FV|]. split; [|constructor]. cbn [fst]. intros v IV.
        assert (In v (flat_map check_vars cs)) as IF by (apply in_flat_map; eauto).
        split; [specialize (B v IF); lia|].
        revert ND IF. generalize (flat_map check_vars cs). clear. intros l. induction l as [|a l IH]; intros ND I; [destruct I|]. destruct I as [<-|I]; cbn in *.
        * now rewrite Nat.eqb_refl.
        * inversion ND as [|? ? NI ND']; subst. destruct (Nat.eqb_spec (id a) (id v)) as [E|_]; [|auto].
          exfalso. apply NI. rewrite E. now apply in_map.
  Qed.

  Lemma nothing_dynamic s n : static [] s n -> dynamic [] s.
  Proof.
    intros (LE & _ & LF & LC & G & GA & CO) st l st' H _ E. rewrite Forall_forall in LC, CO.
    destruct (choose_cases outside float_is finite (choices s) (fallback s) (st (id pv)) st)
      as [(i & c & l' & bnd & (N & PS & _) & EC)|[_ EC]]; rewrite EC in E; injection E as <- <-.
    - apply nth_error_In in N. destruct (LC _ N) as [[_ EL]|LT]; [|cbn in LT; lia]. cbn in EL. subst l'.
      destruct (CO _ N) as (TC & FV & B & _). cbn [fst] in *.
      destruct (passes_typed env outside float_is finite _ _ _ _ TC H PS) as (vals & -> & F).
      split; [|split; [constructor|apply same_refl]]. intros j L. symmetry. apply (bound_below (check_vars c) vals st j n0); [|assumption].
      intros v I. apply B in I. lia.
    - destruct LF as [[_ ->]|LT]; [|cbn in LT; lia]. split; [auto|]. split; [constructor|apply same_refl].
  Qed.

  Notation context_ok := (context_ok env).
  Lemma possible_segments p : okt true (var_type pv) (T p) -> is_matching_on_impossible_segment p = false.
  Proof.
    generalize (var_type pv). intros ty O.
    inversion O as [| | | | | | | |top ts GT GD| | | |]; subst; try reflexivity. cbn.
    destruct (existsb _ ts) eqn:E; [|reflexivity]. apply existsb_exists in E as (t & I & H).
    rewrite Forall_forall in GT. destruct (GT t I) as (_ & _ & _ & N). destruct t; try discriminate.
    rewrite (N _ _ eq_refl) in H. discriminate.
  Qed.
  Lemma unreachable_bad m p : mode_of env (var_type pv) = Done m -> okt true (var_type pv) (T p) ->
    is_matching_on_unreachable_variant p m = true -> bad env (var_type pv) (T p).
  Proof.
    generalize (var_type pv). intros ty M O U.
    inversion O as [| | | | | | | | | | | |top mo n args inferred ks i kk used name module ps MM NN IN F]; subst; try discriminate.
    rewrite MM in M. injection M as <-. cbn in U. destruct inferred as [j|]; [|discriminate].
    apply negb_true_iff, Nat.eqb_neq in U. now constructor.
  Qed.
  Lemma remove_pair_in a i l : In i l -> In i (remove_pair a l) \/ i = a.
  Proof.
    clear. intros I. destruct (pair_eqb a i) eqn:E.
    - right. unfold pair_eqb in E. apply andb_true_iff in E as [E1 E2]. apply Nat.eqb_eq in E1, E2. destruct a, i. cbn in *. congruence.
    - left. apply filter_In. split; [assumption|]. now rewrite E.
  Qed.
  Lemma context_cons b bs x y z : context_ok [b] x y -> context_ok bs y z -> context_ok (b :: bs) x z.
  Proof.
    intros (A1 & A2 & A3) (B1 & B2 & B3). split; [lia|]. split; [congruence|]. intros i I.
    destruct (A3 i I) as [J|(c & [<-|[]] & E & B)]; [|right; exists b; split; [now left|auto]].
    destruct (B3 i J) as [K|(c & IC & E & B)]; [now left|]. right. exists c. split; [now right|auto].
  Qed.
  Lemma moves_context b x y : moves_to x y -> context_ok [b] x y.
  Proof. intros (A & B & C). split; [assumption|]. split; [assumption|]. rewrite C. auto. Qed.

  Definition refutables (b : branch tree) : Prop := Forall (fun c => refutable (un (snd c))) (checks b).

  Lemma loop (P : list (branch tree) -> splitter tree -> nat -> Prop) m :
    (forall bs s n b, Forall (okb G0 n0) bs -> okb G0 n0 b -> keeps pv b -> bs <> [] -> P bs s n ->
       P (bs ++ [b]) (add_fallback_branch b s) n) ->
    (forall bs s n b p, is_matching_on_unreachable_variant p m = true -> okt true (var_type pv) (T p) -> badb b ->
       P bs s n -> P (bs ++ [b]) s n) ->
    (forall bs s b p cs x, Forall (okb G0 n0) bs -> okb G0 n0 b -> Forall (fun a => compat a b) bs ->
       Permutation (checks b) ((pv, T p) :: cs) -> refutable p -> is_matching_on_unreachable_variant p m = false ->
       P bs s (variable_id x) ->
       exists s' x', padd_checked pv p (with_checks b cs) m s x = Done (s', x') /\
         P (bs ++ [b]) s' (variable_id x') /\ moves_to x x') ->
    mode_of env (var_type pv) = Done m -> var_type pv = G0 (id pv) ->
    forall rest bs s x, inv G0 n0 (bs ++ rest) -> Forall refutables rest ->
      (bs = [] -> match rest with b :: _ => ~ keeps pv b | [] => True end) -> P bs s (variable_id x) ->
      exists s' x', psplit pv m rest s x = Done (s', x') /\ P (bs ++ rest) s' (variable_id x') /\ context_ok rest x x'.
  Proof.
    intros HF HD HA M EP. induction rest as [|b rest IH]; intros bs s x I RF FI H; cbn [psplit].
    - exists s, x. split; [reflexivity|]. rewrite app_nil_r. split; [assumption|]. split; [lia|]. split; [reflexivity|]. auto.
    - pose proof I as (FO & PC & ND). apply Forall_app in FO as [FB FR]. inversion FR as [|? ? OB FR']; subst. clear FR.
      inversion RF as [|? ? RB RF']; subst. clear RF.
      assert (Forall (fun a => compat a b) bs) as CB.
      { apply pairs_app in PC as (_ & _ & PC). eapply Forall_impl; [|exact PC]. cbn. intros a F. now inversion F. }
      replace (bs ++ b :: rest) with ((bs ++ [b]) ++ rest) in * by now rewrite <- app_assoc.
      assert (bs ++ [b] = [] -> match rest with b :: _ => ~ keeps pv b | [] => True end) as FI' by (intros E; destruct bs; discriminate).
      destruct (pop_check pv (checks b)) as [[[w t] cs]|] eqn:PO.
      + apply pop_check_some in PO as [EW P1]. cbn [fst] in EW.
        assert (w = pv) as ->.
        { destruct OB as (OB & _). rewrite Forall_forall in OB.
          assert (In (w, t) (checks b)) as IW by (apply (Permutation_in _ (Permutation_sym P1)); now left).
          destruct (OB _ IW) as [TW _]. cbn [fst] in TW. rewrite EW, <- EP in TW. destruct w, pv. cbn in *. congruence. }
        destruct t as [p]. destruct (okb_pivot _ _ _ _ _ _ _ _ _ _ OB P1) as (VP & OP & LP & F1 & F2 & F3 & NDC).
        assert (refutable p) as RP.
        { unfold refutables in RB. rewrite Forall_forall in RB. apply (RB (pv, T p)). apply (Permutation_in _ (Permutation_sym P1)). now left. }
        destruct (is_matching_on_unreachable_variant p m) eqn:U.
        * assert (badb b) as BB.
          { exists (pv, T p). split; [apply (Permutation_in _ (Permutation_sym P1)); now left|]. now apply (unreachable_bad m). }
          specialize (HD bs s (variable_id x) b p U OP BB H).
          destruct (IH (bs ++ [b]) s (mark_as_matching_impossible_variant (branch_id (with_checks b cs)) x)) as (s' & x' & -> & H' & C'); auto.
          exists s', x'. split; [reflexivity|]. split; [assumption|]. eapply context_cons; [|exact C'].
          split; [cbn; lia|]. split; [reflexivity|]. intros i II. cbn [reachable mark_as_matching_impossible_variant].
          destruct (remove_pair_in (branch_id (with_checks b cs)) i _ II) as [J| ->]; [now left|].
          right. exists b. split; [now left|]. split; [reflexivity|assumption].
        * rewrite (possible_segments _ OP).
          destruct (HA bs s b p cs x) as (s1 & x1 & -> & H1 & M1); auto. cbn [bind].
          destruct (IH (bs ++ [b]) s1 x1) as (s' & x' & -> & H' & C'); auto.
          exists s', x'. split; [reflexivity|]. split; [assumption|]. eapply context_cons; [|exact C']. now apply moves_context.
      + apply pop_check_none in PO. assert (bs <> []) as NE by (intros ->; exact (FI eq_refl PO)).
        destruct (IH (bs ++ [b]) (add_fallback_branch b s) x) as (s' & x' & -> & H' & C'); auto.
        exists s', x'. split; [reflexivity|]. split; [assumption|]. eapply context_cons; [|exact C']. apply moves_context, moves_refl.
  Qed.

  Lemma exinv_fallback m s b : exinv m s -> exinv m (add_fallback_branch b s).
  Proof.
    clear. intros (E1 & E2 & E3). unfold add_fallback_branch. split; [|split]; cbn [indices choices fallback].
    - intros k i. rewrite E1, nth_error_map. destruct (nth_error (choices s) i) as [[c l]|]; cbn; split.
      + intros (c' & l' & [= <- <-] & K). eauto.
      + intros (c' & l' & [= <- <-] & K). eauto.
      + intros (c' & l' & [=] & K).
      + intros (c' & l' & [=] & K).
    - exact E2.
    - intros c l I IG. apply in_map_iff in I as ([c' l'] & [= <- <-] & I). now rewrite (E3 c' l' I IG).
  Qed.
  Lemma strinv_fallback bs s b : strinv bs s -> strinv (bs ++ [b]) (add_fallback_branch b s).
  Proof.
    intros (S1 & S2 & S3 & S4 & S5). unfold add_fallback_branch.
    split; [|split; [|split; [|split]]]; cbn [indices choices fallback prefix_indices].
    - intros w i. rewrite S1, nth_error_map. destruct (nth_error (choices s) i) as [[c l]|]; cbn; split.
      + intros (l' & [= -> <-]). eauto.
      + intros (l' & [= -> <-]). eauto.
      + intros (l' & [=]).
      + intros (l' & [=]).
    - intros w i. rewrite S2, nth_error_map. destruct (nth_error (choices s) i) as [[c l]|]; cbn; split.
      + intros (r & l' & [= -> <-]). eauto.
      + intros (r & l' & [= -> <-]). eauto.
      + intros (r & l' & [=]).
      + intros (r & l' & [=]).
    - assumption.
    - assumption.
    - intros i c l N. rewrite nth_error_map in N. destruct (nth_error (choices s) i) as [[c0 l0]|] eqn:E; [|discriminate].
      injection N as <- <-. cbn [fst snd]. destruct (S5 _ _ _ E) as (b' & p & cs & I & P1 & K & R & G).
      exists b', p, cs. split; [apply in_app_iff; now left|]. split; [assumption|]. split; [assumption|]. split; [assumption|].
      intros HB. rewrite existsb_app, (G HB). reflexivity.
  Qed.

  (** ** What comes out *)
  Definition part_ok G n bs (l : list (branch tree)) : Prop :=
    inv G n l /\ weights l < weights bs /\
    forall b', In b' l -> exists b, In b bs /\ branch_id b' = branch_id b /\ (badb b' -> badb b).
  Definition total (s : splitter tree) : Prop :=
    (forall y, has_type y (var_type pv) -> exists c l, In (c, l) (choices s) /\ passes c y <> None) /\
    (forall c l, In (c, l) (choices s) -> is_ignored c = true -> l = fallback s) /\
    (forall y i j c l c' l', has_type y (var_type pv) -> nth_error (choices s) i = Some (c, l) -> nth_error (choices s) j = Some (c', l') ->
       passes c y <> None -> passes c' y <> None -> i = j) /\
    choices s <> [].

  (** What is known of the checks and the branches of a splitter. *)
  Definition made_by G m (bs : list (branch tree)) (s : splitter tree) n : Prop :=
    (Forall (choice_ok env outside float_is finite pv n0 G n bs) (choices s) /\
     sub (fun b b' => keeps pv b /\ b' = b) bs (fallback s) /\
     (is_infinite m = false -> forall ch, In ch (choices s) -> exists k, check_kind (fst ch) = Some k /\ known m k) /\
     NoDup (map (fun ch => check_kind (fst ch)) (choices s)) /\
     (var_type pv = CString -> forall ch, In ch (choices s) -> creator pv bs (fst ch) (snd ch))) \/
    (var_type pv = CBitArray /\ exists t l f g, choices s = [(IsBitArray t, l)] /\
       sub (deriv pv (bits_residual env outside float_is finite pv f)) bs l /\ sub (deriv pv (bits_residual env outside float_is finite pv g)) bs (fallback s)).
  Lemma kinds_nodup (cs : list (check * list (branch tree))) :
    (forall i j c l c' l', nth_error cs i = Some (c, l) -> nth_error cs j = Some (c', l') -> check_kind c = check_kind c' -> i = j) ->
    NoDup (map (fun ch => check_kind (fst ch)) cs).
  Proof.
    clear. intros U. apply NoDup_nth_error. intros i j L E. rewrite map_length in L. rewrite !nth_error_map in E.
    destruct (nth_error cs i) as [[c l]|] eqn:N; [|apply nth_error_None in N; lia].
    destruct (nth_error cs j) as [[c' l']|] eqn:N'; [|discriminate]. injection E as E. eapply U; eassumption.
  Qed.
  Lemma exclusive_kinds bs s n m G : static bs s n -> Forall (choice_ok env outside float_is finite pv n0 G n bs) (choices s) -> exinv m s ->
    NoDup (map (fun ch => check_kind (fst ch)) (choices s)).
  Proof.
    intros _ CO (E1 & _). apply kinds_nodup. intros i j c l c' l' N N' E. rewrite Forall_forall in CO.
    destruct (CO _ (nth_error_In _ _ N)) as (TCK & _). cbn [fst] in *.
    assert (exists k, check_kind c = Some k) as (k & K) by (inversion TCK; subst; eexists; reflexivity).
    assert (get_index k (indices s) = Some i) as A1 by (apply E1; eauto).
    assert (get_index k (indices s) = Some j) as A2 by (apply E1; exists c', l'; split; congruence). congruence.
  Qed.
  Lemma string_kinds bs s n G : var_type pv = CString -> Forall (choice_ok env outside float_is finite pv n0 G n bs) (choices s) -> strinv bs s ->
    NoDup (map (fun ch => check_kind (fst ch)) (choices s)).
  Proof.
    intros ES CO (S1 & S2 & _ & S4 & _). apply kinds_nodup. intros i j c l c' l' N N' E. rewrite Forall_forall in CO.
    destruct (CO _ (nth_error_In _ _ N)) as (T1 & _). destruct (CO _ (nth_error_In _ _ N')) as (T2 & _). cbn [fst] in *. rewrite ES in T1, T2.
    inversion T1; subst; inversion T2; subst; cbn in E; try discriminate; injection E as E; subst.
    - assert (get_index (KString s1) (indices s) = Some i) as A1 by (apply S1; eauto).
      assert (get_index (KString s1) (indices s) = Some j) as A2 by (apply S1; eauto). congruence.
    - assert (In (s1, i) (prefix_indices s)) as A1 by (apply S2; eauto).
      assert (In (s1, j) (prefix_indices s)) as A2 by (apply S2; eauto).
      assert (starts_with s1 s1 = true) as SW by (apply starts_with_iff; exists []; now rewrite app_nil_r).
      destruct (S4 _ _ _ _ A1 A2 SW) as [[_ ?]|L1]; [assumption|]. destruct (S4 _ _ _ _ A2 A1 SW) as [[_ ?]|L2]; [now symmetry|lia].
  Qed.
  Lemma light_weights bs l : bs <> [] -> light bs l -> weights l < weights bs.
  Proof. clear. intros NE [[E _]|L]; congruence. Qed.

  Lemma sub_part G n R bs l : nice env outside float_is finite pv n0 G n R -> inv G0 n0 bs ->
    (forall i, i < n0 -> G i = G0 i) -> n0 <= n -> sub (deriv pv R) bs l -> weights l < weights bs -> part_ok G n bs l.
  Proof.
    intros N I A LE S W. split; [exact (sub_inv env outside float_is finite float_value pv n0 G0 G n R bs l N I A LE S)|].
    split; [assumption|]. intros b' IB. destruct (sub_in _ _ _ _ S IB) as (b & J & D). exists b. split; [assumption|].
    split; [now destruct (deriv_same _ _ _ _ D)|]. eapply deriv_badb; eassumption.
  Qed.

  Lemma static_part bs s n : bs <> [] -> inv G0 n0 bs -> id pv < n0 -> var_type pv = G0 (id pv) -> static bs s n ->
    exists G, (forall i, i < n0 -> G i = G0 i) /\ Forall (fun ch => part_ok G n bs (snd ch)) (choices s) /\ part_ok G n bs (fallback s) /\
      inv G0 n0 (fallback s) /\ Forall (choice_ok env outside float_is finite pv n0 G n bs) (choices s).
  Proof.
    intros NE I LP VP (LE & SF & LF & LC & G & GA & CO). exists G. split; [assumption|].
    assert (id pv < n) as LPn by lia. assert (var_type pv = G (id pv)) as VG by now rewrite GA.
    split; [|split; [|split; [|assumption]]].
    - rewrite Forall_forall in *. intros ch IC. destruct (CO ch IC) as (TC & FV & B & S).
      eapply sub_part; try eassumption.
      + now apply residual_nice.
      + apply light_weights; auto.
    - eapply sub_part; [apply (bits_nice env outside float_is finite pv n0 G n (fun _ => true)); assumption|exact I|exact GA|exact LE| |now apply light_weights].
      eapply sub_mono; [|exact SF]. intros a b (K & ->). now left.
    - assert (nice env outside float_is finite pv n0 G0 n0 (bits_residual env outside float_is finite pv (fun _ => true))) as N
        by (apply bits_nice; assumption).
      refine (sub_inv env outside float_is finite float_value pv n0 G0 G0 n0 _ bs _ N I (fun _ _ => eq_refl) (le_n n0) _).
      eapply sub_mono; [|exact SF]. intros a b (K & ->). now left.
  Qed.

  Lemma known_total m p y : mode_of env (var_type pv) = Done m -> okt true (var_type pv) (T p) -> refutable p ->
    is_infinite m = false -> has_type y (var_type pv) ->
    exists k, known m k /\ forall c, check_kind c = Some k -> tcheck (var_type pv) c -> passes c y <> None.
  Proof.
    generalize (var_type pv). intros ty M O R NI H.
    inversion O as [| | |top z|top f|top s TD|top s name r TD SR| |top ts GT GD|top ts ps F|top t|top t a r OA OR|top mo n args inferred ks i kk used name module ps MM NN IN F]; subst; cbn in R; try contradiction;
      try (cbn in M; injection M as <-; discriminate).
    - cbn in M. injection M as <-. destruct (typed_tuple env _ _ H) as (vs & -> & FV). exists (KTuple (length ts)). split; [reflexivity|].
      intros c K TC. inversion TC; subst. cbn [CaseSpec.passes]. discriminate.
    - cbn in M. injection M as <-. destruct (typed_list env _ _ H) as (vs & -> & FV).
      destruct vs as [|v vs]; [exists KEmptyList|exists KNonEmptyList]; (split; [cbn; auto|]); intros c K TC; inversion TC; subst; cbn in *; discriminate.
    - cbn in M. injection M as <-. destruct (typed_list env _ _ H) as (vs & -> & FV).
      destruct vs as [|v vs]; [exists KEmptyList|exists KNonEmptyList]; (split; [cbn; auto|]); intros c K TC; inversion TC; subst; cbn in *; discriminate.
    - rewrite MM in M. injection M as <-. destruct (named_values env _ _ _ _ _ _ _ _ MM NN H) as (j & k' & vs & -> & NJ & FV & INF).
      exists (KVariant j). split.
      + cbn. destruct inferred as [o|]; [now rewrite (INF o eq_refl)|]. exists j. split; [reflexivity|]. apply nth_error_Some. congruence.
      + intros c K TC. inversion TC; subst; try discriminate. cbn in K. injection K as ->. cbn [CaseSpec.passes].
        destruct (Nat.eq_dec j j); congruence.
  Qed.

  Lemma exinv_total m p bs s n : mode_of env (var_type pv) = Done m -> okt true (var_type pv) (T p) -> refutable p ->
    is_infinite m = false -> (exists y, has_type y (var_type pv)) \/ choices s <> [] -> static bs s n -> exinv m s ->
    total s.
  Proof.
    intros M O R NI NE (_ & _ & _ & _ & G & _ & CO) (E1 & E2 & E3). rewrite Forall_forall in CO.
    assert (forall y, has_type y (var_type pv) -> exists c l, In (c, l) (choices s) /\ passes c y <> None) as TT.
    { intros y H. destruct (known_total m p y M O R NI H) as (k & K & PK). specialize (E2 k K).
      destruct (get_index k (indices s)) as [i|] eqn:GI; [|congruence]. apply E1 in GI as (c & l & N & CK). exists c, l.
      apply nth_error_In in N. split; [assumption|]. apply PK; [assumption|]. apply (CO _ N). }
    split; [assumption|]. split; [assumption|]. split.
    { intros y i j c l c' l' H N1 N2 P1 P2.
      assert (exclusive (var_type pv)) as EXC.
      { revert O R M NI. clear. generalize (var_type pv). intros ty O R M NI. inversion O; subst; cbn in *; auto; try contradiction; injection M as <-; discriminate. }
      assert (exists k, check_kind c = Some k /\ check_kind c' = Some k) as (k & K1 & K2).
      { apply nth_error_In in N1, N2. destruct (CO _ N1) as (T1 & _), (CO _ N2) as (T2 & _). cbn [fst] in *.
        revert T1 T2 H P1 P2 EXC. clear. generalize (var_type pv). intros ty T1 T2 H P1 P2 EXC.
        destruct T1; inversion T2; subst; try destruct EXC; cbn; try (eexists; split; [reflexivity|reflexivity]).
        - destruct (typed_int env _ H) as [z' ->]. cbn in P1, P2. destruct (Z.eq_dec z z'), (Z.eq_dec z0 z'); try congruence. subst. eauto.
        - destruct (typed_float env _ H) as [z' ->]. cbn in P1, P2. destruct (N.eq_dec z z'), (N.eq_dec z0 z'); try congruence. subst. eauto.
        - destruct (typed_list env _ _ H) as (vs & -> & _). destruct vs; cbn in *; congruence.
        - destruct (typed_list env _ _ H) as (vs & -> & _). destruct vs; cbn in *; congruence.
        - destruct y; cbn [CaseSpec.passes] in P1, P2; try congruence.
          repeat match goal with H : context[Nat.eq_dec ?a ?b] |- _ => destruct (Nat.eq_dec a b); [|congruence] end. subst. eauto. }
      assert (get_index k (indices s) = Some i) as A1 by (apply E1; eauto).
      assert (get_index k (indices s) = Some j) as A2 by (apply E1; eauto). congruence. }
    destruct NE as [[y H]|NE]; [|assumption].
    destruct (TT y H) as (c & l & I & _). intros E. rewrite E in I. destruct I.
  Qed.
  Lemma exinv_nonempty m p s : mode_of env (var_type pv) = Done m -> okt true (var_type pv) (T p) -> refutable p ->
    is_infinite m = false -> exinv m s -> choices s <> [].
  Proof.
    generalize (var_type pv). intros ty M O R NI (E1 & E2 & _).
    assert (exists k, known m k) as (k & K).
    { inversion O as [| | |top z|top f|top s' TD|top s' name r TD SR| |top ts GT GD|top ts ps F|top t|top t a r OA OR|top mo n args inferred ks i kk used name module ps MM NN IN F]; subst; cbn in R; try contradiction;
        try (cbn in M; injection M as <-; try discriminate; cbn; eauto; fail).
      rewrite MM in M. injection M as <-. cbn. destruct inferred as [o|]; [eauto|]. exists (KVariant i), i. split; [reflexivity|]. apply nth_error_Some. congruence. }
    specialize (E2 k K). destruct (get_index k (indices s)) as [i|] eqn:GI; [|congruence]. apply E1 in GI as (c & l & N & _).
    intros E. rewrite E in N. destruct i; discriminate.
  Qed.

  Theorem split_result m p first others x : inv G0 n0 (first :: others) -> Forall refutables (first :: others) ->
    In (pv, T p) (checks first) -> mode_of env (var_type pv) = Done m -> n0 <= variable_id x ->
    exists ks x1 s x2, known_checks m x = Done (ks, x1) /\ psplit pv m (first :: others) (from_checks ks) x1 = Done (s, x2) /\
      context_ok (first :: others) x x2 /\ dynamic (first :: others) s /\
      (is_infinite m = false -> total s /\ inv G0 n0 (fallback s)) /\
      exists G, Forall (fun ch => part_ok G (variable_id x2) (first :: others) (snd ch)) (choices s) /\
        part_ok G (variable_id x2) (first :: others) (fallback s) /\ (forall i, i < n0 -> G i = G0 i) /\
        made_by G m (first :: others) s (variable_id x2).
  Proof.
    intros I RF IP M LE. assert (In first (first :: others)) as I1 by now left.
    pose proof I as (FO & _ & _). rewrite Forall_forall in FO. specialize (FO first I1).
    assert (exists cs, Permutation (checks first) ((pv, T p) :: cs)) as (cs0 & P1).
    { apply in_split in IP as (l1 & l2 & ->). exists (l1 ++ l2). symmetry. apply Permutation_middle. }
    destruct (okb_pivot _ _ _ _ _ _ _ _ _ _ FO P1) as (VP & OP & LP & F1 & F2 & F3 & NDC).
    assert (refutable p) as RP.
    { rewrite Forall_forall in RF. specialize (RF first I1). unfold refutables in RF. rewrite Forall_forall in RF. apply (RF (pv, T p) IP). }
    assert (~ keeps pv first) as NK.
    { intros K. unfold keeps in K. rewrite Forall_forall in K. apply (K _ IP). reflexivity. }
    destruct (known_spec m p x M OP RP) as (ks & x1 & EK & MK & TC & FV & ND & B & EX & CK).
    pose proof (known_static ks x x1 LE MK TC FV ND B) as ST0.
    pose proof (nothing_dynamic _ _ ST0) as DY0.
    assert (exclusive (var_type pv) \/ var_type pv = CString \/ var_type pv = CBitArray) as [EXC|[EST|EBA]].
    { revert OP RP. clear. generalize (var_type pv). intros ty OP RP. inversion OP; subst; cbn in *; auto; contradiction. }
    - destruct (loop (fun bs s n => static bs s n /\ dynamic bs s /\ exinv m s /\ only_known m s) m) with (rest := first :: others) (bs := @nil (branch tree)) (s := from_checks (P := tree) ks) (x := x1)
        as (s & x2 & E & (ST & DY & XI & OK) & C); auto.
      + intros bs s n b FB OB K NE (S & D & X & OK). split; [|split; [|split]].
        * now apply (add_fallback_step env outside float_is finite float_value guards guards_perm).
        * exact (proj2 (add_fallback_step env outside float_is finite float_value guards guards_perm pv G0 n0 bs s b n OB K NE S D)).
        * now apply exinv_fallback.
        * exact OK.
      + intros bs s n b q U OQ BB (S & D & X & OK).
        destruct (drop_step env outside float_is finite float_value guards guards_perm pv G0 n0 bs s b n S D) as [S' D']; [|auto].
        intros st G. now apply (badb_none env).
      + intros bs s b q cs y FB OB CB PB RQ UQ (S & D & X & OK).
        destruct (exclusive_step env outside float_is finite float_value guards guards_perm pv G0 n0 bs s b q cs m y) as (s' & y' & E & S' & D' & X' & MV); auto.
        exists s', y'. split; [assumption|]. split; [|assumption]. split; [assumption|]. split; [assumption|]. split; [assumption|].
        destruct (okb_pivot _ _ _ _ _ _ _ _ _ _ OB PB) as (_ & OQ & _). exact (known_step env outside float_is finite pv q _ m s y s' y' M EXC OQ RQ UQ X E OK).
      + split; [exact ST0|]. split; [exact DY0|]. split; [exact EX|]. eapply known_only; eassumption.
      + exists ks, x1, s, x2. split; [assumption|]. split; [assumption|]. cbn [app] in ST, DY.
        assert (first :: others <> []) as NE by discriminate.
        destruct (static_part _ _ _ NE I LP VP ST) as (G & GA & PC & PF & IF & CO).
        split. { destruct MK as (K1 & K2 & K3). destruct C as (C1 & C2 & C3). split; [lia|]. split; [congruence|]. rewrite <- K3. exact C3. }
        split; [assumption|]. split.
        * intros NI. split; [|assumption]. eapply exinv_total; try eassumption. right. eapply exinv_nonempty; eassumption.
        * exists G. split; [assumption|]. split; [assumption|]. split; [assumption|]. left. split; [assumption|]. split; [apply ST|]. split.
          -- intros INF [c l] IC. apply In_nth_error in IC as (i & N). destruct XI as (E1 & _ & _). specialize (OK INF).
             rewrite Forall_forall in CO. destruct (CO _ (nth_error_In _ _ N)) as (TCK & _). cbn [fst] in *.
             assert (exists k, check_kind c = Some k) as (k & K) by (inversion TCK; subst; eexists; reflexivity).
             exists k. split; [assumption|]. apply (OK k i). apply E1. eauto.
          -- split; [eapply exclusive_kinds; eassumption|]. intros ES. rewrite ES in EXC. destruct EXC.
    - assert (m = Infinite) as -> by (rewrite EST in M; cbn in M; congruence). cbn in EK. injection EK as <- <-.
      destruct (loop (fun bs s n => static bs s n /\ dynamic bs s /\ strinv bs s) Infinite) with (rest := first :: others) (bs := @nil (branch tree)) (s := from_checks (P := tree) []) (x := x)
        as (s & x2 & E & (ST & DY & XI) & C); auto.
      + intros bs s n b FB OB K NE (S & D & X). split; [|split].
        * now apply (add_fallback_step env outside float_is finite float_value guards guards_perm).
        * exact (proj2 (add_fallback_step env outside float_is finite float_value guards guards_perm pv G0 n0 bs s b n OB K NE S D)).
        * now apply strinv_fallback.
      + intros bs s n b q U OQ BB (S & D & X). destruct q; discriminate.
      + intros bs s b q cs y FB OB CB PB RQ UQ (S & D & X).
        destruct (string_step env outside float_is finite float_value guards guards_perm pv G0 n0 bs s b q cs y) as (s' & y' & E & S' & D' & X' & MV); auto.
        exists s', y'. auto.
      + split; [exact ST0|]. split; [exact DY0|]. split; [|split; [|split; [|split]]]; cbn.
        * intros w i. split; [discriminate|]. intros (l & N). destruct i; discriminate.
        * intros w i. split; [intros []|]. intros (r & l & N). destruct i; discriminate.
        * constructor.
        * intros w i w' i' [].
        * intros i c l N. destruct i; discriminate.
      + exists [], x, s, x2. split; [reflexivity|]. split; [assumption|]. cbn [app] in ST, DY.
        assert (first :: others <> []) as NE by discriminate.
        destruct (static_part _ _ _ NE I LP VP ST) as (G & GA & PC & PF & IF & CO).
        split; [exact C|]. split; [assumption|]. split; [discriminate|]. exists G. split; [assumption|]. split; [assumption|]. split; [assumption|].
        left. split; [assumption|]. split; [apply ST|]. split; [discriminate|]. split; [eapply string_kinds; eassumption|]. intros _ [c l] IC. apply In_nth_error in IC as (i & N).
        destruct XI as (_ & _ & _ & _ & S5). exact (S5 _ _ _ N).
    - assert (m = Infinite) as -> by (rewrite EBA in M; cbn in M; congruence). cbn in EK. injection EK as <- <-.
      destruct (loop (fun bs s n => n0 <= n /\ dynamic bs s /\ bitinv bs s) Infinite) with (rest := first :: others) (bs := @nil (branch tree)) (s := from_checks (P := tree) []) (x := x)
        as (s & x2 & E & (LE2 & DY & XI) & C); auto.
      + intros bs s n b FB OB K NE (S & D & X). split; [assumption|].
        destruct (bits_fallback_step env outside float_is finite float_value guards guards_perm pv G0 n0 bs s b OB K NE X D). auto.
      + intros bs s n b q U OQ BB (S & D & X). destruct q; discriminate.
      + intros bs s b q cs y FB OB CB PB RQ UQ (S & D & X).
        destruct (okb_pivot _ _ _ _ _ _ _ _ _ _ OB PB) as (_ & OQ & _).
        assert (exists ts, q = ABitArray ts) as (ts & ->).
        { rewrite EBA in OQ. revert OQ RQ. clear. intros OQ RQ. inversion OQ; subst; cbn in *; try contradiction. eauto. }
        destruct (bits_step env outside float_is finite float_value guards guards_perm pv G0 n0 bs s b ts cs Infinite y) as (s' & E & X' & D'); auto.
        exists s', y. split; [assumption|]. split; [auto|]. apply moves_refl.
      + split; [assumption|]. split; [exact DY0|]. split; [constructor|]. split; [now left|]. now left.
      + exists [], x, s, x2. split; [reflexivity|]. split; [assumption|]. cbn [app] in XI, DY.
        assert (first :: others <> []) as NE by discriminate.
        split; [exact C|]. split; [assumption|]. split; [discriminate|]. exists G0.
        destruct XI as (SF & LF & [[EE _]|(_ & t & l & EC & _ & _ & LL & SL)]); [discriminate|].
        rewrite EC. split; [constructor; [|constructor]|split; [|split; [reflexivity|right; split; [assumption|exists t, l; eauto 8]]]].
        * cbn [snd]. eapply sub_part; [apply bits_nice|exact I| | |exact SL|]; auto; try lia. now apply light_weights.
        * eapply sub_part; [apply bits_nice|exact I| | |exact SF|]; auto; try lia. now apply light_weights.
  Qed.
End Loop.
