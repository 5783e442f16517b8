(** Splitting by checks that have a kind: the invariants of each type. *)
From Coq Require Import ZArith NArith Bool List Lia Permutation.
From Verif Require Import Text Strings StringsSpec Bits BitsSpec BitsProofs Case CaseSpec CaseText CasePure CaseSem CaseStatic CaseMove CaseResidual CaseDeriv CaseNice CaseSplit.
Import ListNotations.
Local Open Scope nat_scope.

(** ** Fresh variables *)
Definition moves_to (x x' : context) : Prop :=
  variable_id x <= variable_id x' /\ missing x' = missing x /\ reachable x' = reachable x.
Lemma moves_refl x : moves_to x x.
Proof. repeat split; lia. Qed.
Lemma moves_trans x y z : moves_to x y -> moves_to y z -> moves_to x z.
Proof. intros (A & B & C) (D & E & F). repeat split; try congruence; lia. Qed.
(** The variables of a check made between two contexts. *)
Definition fresh_between (x x' : context) (c : check) : Prop :=
  fresh_vars c /\ (forall v, In v (check_vars c) -> variable_id x <= id v < variable_id x').
Lemma fresh_variables_spec ts : forall x, exists vs x', fresh_variables ts x = (vs, x') /\ map var_type vs = ts /\
  NoDup (map id vs) /\ (forall v, In v vs -> variable_id x <= id v < variable_id x') /\ moves_to x x'.
Proof.
  induction ts as [|t ts IH]; intros x; cbn [fresh_variables fresh_variable].
  - exists [], x. split; [reflexivity|]. split; [reflexivity|]. split; [constructor|]. split; [intros v []|apply moves_refl].
  - set (x1 := Context _ _ _ _ _). destruct (IH x1) as (vs & x' & -> & M & N & B & MV).
    exists (Var (variable_id x) t :: vs), x'. split; [reflexivity|]. split; [cbn; now rewrite M|].
    destruct MV as (M1 & M2 & M3). cbn [variable_id missing reachable x1] in *. split; [|split; [|split; [lia|auto]]].
    + cbn. constructor; [|assumption]. intros I. apply in_map_iff in I as (v & E & I). specialize (B v I). lia.
    + intros v [<-|I]; cbn [id]; [lia|]. specialize (B v I). lia.
Qed.

Lemma variant_check_spec i k x : exists c x' vs, is_variant_check i k x = (c, x') /\
  c = IsVariant (NeverExplicitlyMatchedOn (c_name k)) i (labels_from 0 (c_parameters k)) vs /\
  map var_type vs = map snd (c_parameters k) /\ fresh_between x x' c /\ moves_to x x'.
Proof.
  unfold is_variant_check. destruct (fresh_variables_spec (map snd (c_parameters k)) x) as (vs & x' & -> & M & N & B & MV).
  eexists _, x', vs. split; [reflexivity|]. split; [reflexivity|]. split; [assumption|]. split; [|assumption]. split; assumption.
Qed.
Lemma tuple_check_spec ts x : exists vs x', is_tuple_check ts x = (IsTuple (length ts) vs, x') /\
  map var_type vs = ts /\ fresh_between x x' (IsTuple (length ts) vs) /\ moves_to x x'.
Proof.
  unfold is_tuple_check. destruct (fresh_variables_spec ts x) as (vs & x' & -> & M & N & B & MV).
  exists vs, x'. split; [reflexivity|]. split; [assumption|]. split; [|assumption]. split; assumption.
Qed.
Lemma list_check_spec t x : exists f r x', is_list_check t x = (IsNonEmptyList f r, x') /\
  var_type f = t /\ var_type r = CList t /\ fresh_between x x' (IsNonEmptyList f r) /\ moves_to x x'.
Proof.
  unfold is_list_check. cbn. eexists _, _, _. split; [reflexivity|]. split; [reflexivity|]. split; [reflexivity|]. split; [|repeat split; cbn; lia].
  split.
  - unfold fresh_vars. cbn. constructor; [cbn; lia|]. constructor; [cbn; tauto|constructor].
  - cbn. intros v [<-|[<-|[]]]; cbn; lia.
Qed.

Lemma kind_eqb_iff a b : kind_eqb a b = true <-> a = b.
Proof.
  destruct a, b; cbn; try (split; congruence); rewrite ?Z.eqb_eq, ?N.eqb_eq, ?text_eqb_iff, ?Nat.eqb_eq; split; congruence.
Qed.
Lemma get_index_cons k k' i is : get_index k ((k', i) :: is) = if kind_eqb k k' then Some i else get_index k is.
Proof. reflexivity. Qed.

Section Kinds.
  Context (env : environment)
          (outside : text -> Z)
          (float_is : text -> endianness -> list bool -> bool)
          (finite : endianness -> list bool -> bool)
          (float_value : text -> val)
          (guards : nat -> list (text * val) -> bool)
          (guards_perm : forall c l m, Permutation l m -> guards c l = guards c m).
  Notation passes := (passes outside float_is finite).
  Notation tmatch := (tmatch outside float_is finite).
  Notation tmatches := (tmatches outside float_is finite).
  Notation checks_match := (checks_match outside float_is finite).
  Notation branch_match := (branch_match outside float_is finite float_value).
  Notation selected := (selected outside float_is finite float_value guards).
  Notation first_match := (first_match outside float_is finite float_value guards).
  Notation has_type := (has_type env).
  Notation okt := (okt env outside float_is finite).
  Notation okb := (okb env outside float_is finite).
  Notation goodb := (goodb env outside float_is finite).
  Notation tcheck := (tcheck env).
  Notation badb := (badb env).
  Notation chosen := (chosen outside float_is finite).
  Notation unchosen := (unchosen outside float_is finite).
  Context (pv : cvar) (G0 : nat -> ctype) (n0 : nat).
  Notation static := (static env outside float_is finite pv G0 n0).
  Notation dynamic := (dynamic env outside float_is finite float_value guards pv n0).
  Notation new_check_ok := (new_check_ok env pv).

  (** ** Types whose checks exclude each other *)
  Definition exclusive (ty : ctype) : Prop :=
    match ty with CInt | CFloat | CTuple _ | CList _ | CNamed _ _ _ _ => True | _ => False end.
  Lemma exclusive_passes ty c p x : exclusive ty -> tcheck ty c -> okt true ty (T p) -> refutable p ->
    has_type x ty -> tmatch (T p) x <> None -> passes c x <> None -> same_kind c p.
  Proof.
    intros X K O R H M S. unfold same_kind.
    destruct K as [z|z|s T|s r T E|ts vs E|t|t f r E1 E2|m n args inferred ks i k mt ls vs Mo N E]; try contradiction.
    - inversion O; subst; cbn in R; try contradiction. destruct (typed_int env _ H) as [y ->]. cbn in *.
      destruct (Z.eq_dec z y), (Z.eq_dec z0 y); congruence.
    - inversion O; subst; cbn in R; try contradiction. destruct (typed_float env _ H) as [y ->]. cbn in *.
      destruct (N.eq_dec z y), (N.eq_dec f y); congruence.
    - inversion O; subst; cbn in R; try contradiction. cbn. f_equal. f_equal. eapply Forall2_len; eassumption.
    - inversion O; subst; cbn in R; try contradiction; [reflexivity|].
      destruct (typed_list env _ _ H) as (xs & -> & F). destruct xs; cbn in *; congruence.
    - inversion O; subst; cbn in R; try contradiction; [|reflexivity].
      destruct (typed_list env _ _ H) as (xs & -> & F). destruct xs; cbn in *; congruence.
    - inversion O; subst; cbn in R; try contradiction. rewrite tmatch_variant in M.
      destruct x; cbn in *; try congruence. destruct (Nat.eq_dec i index), (Nat.eq_dec i0 index); congruence.
  Qed.
  Lemma exclusive_pushable ty c p : exclusive ty -> tcheck ty c -> same_kind c p -> pushable c p.
  Proof. intros X K S. destruct K; try contradiction; exact S. Qed.

  (** The kinds of the checks known from the start. *)
  Definition known (m : branch_mode) (k : kind) : Prop :=
    match m with
    | Infinite => False
    | MTuple ts => k = KTuple (length ts)
    | MList _ => k = KEmptyList \/ k = KNonEmptyList
    | MNamed ks None => exists i, k = KVariant i /\ i < length ks
    | MNamed ks (Some i) => k = KVariant i
    end.
  Definition exinv (m : branch_mode) (s : splitter tree) : Prop :=
    (forall k i, get_index k (indices s) = Some i <-> exists c l, nth_error (choices s) i = Some (c, l) /\ check_kind c = Some k) /\
    (forall k, known m k -> get_index k (indices s) <> None) /\
    (forall c l, In (c, l) (choices s) -> is_ignored c = true -> l = fallback s).

  Lemma refutable_kind ty p : exclusive ty -> okt true ty (T p) -> refutable p -> exists k, to_runtime_check_kind p = Some k /\
    (match k with KString _ | KStringPrefix _ => False | _ => True end).
  Proof. intros X O R. inversion O; subst; cbn in R, X; try contradiction; cbn; eauto. Qed.
  Lemma exclusive_overlaps (s : splitter tree) k : match k with KString _ | KStringPrefix _ => False | _ => True end ->
    check_overlaps s k = (option_list (get_index k (indices s)), is_empty (option_list (get_index k (indices s)))).
  Proof. destruct k; try contradiction; reflexivity. Qed.

  (** The check for a pattern, when there is none yet. *)
  Lemma new_check m p k x : mode_of env (var_type pv) = Done m -> okt true (var_type pv) (T p) -> refutable p ->
    to_runtime_check_kind p = Some k -> new_check_ok p k m x.
  Proof.
    unfold CaseSplit.new_check_ok. generalize (var_type pv). intros ty M O R K.
    inversion O as [| | |top z|top f|top s TD|top s name r TD SR| | |top ts ps F|top t|top t a r OA OR|top mo n args inferred ks i kk used name module ps MM NN IN F]; subst; cbn in R; try contradiction; cbn in K; try discriminate; injection K as <-.
    - exists (IsInt z), x. cbn. repeat split; auto; try (intros v []; fail); try constructor; try lia.
    - exists (IsFloat f), x. cbn. repeat split; auto; try (intros v []; fail); try constructor; try lia.
    - exists (IsString s), x. cbn. repeat split; auto; try (intros v []; fail); try constructor; auto; try lia.
    - eexists (IsStringPrefix s (Var (variable_id x) CString)), _. split; [reflexivity|]. split; [constructor; auto|].
      split; [unfold fresh_vars; cbn; repeat constructor; intros []|]. split; [cbn; left; apply starts_with_iff; exists []; now rewrite app_nil_r|].
      split; [reflexivity|]. cbn. split; [intros v [<-|[]]; cbn; lia|]. repeat split; lia.
    - cbn in M. injection M as <-. cbn [fresh_runtime_check]. destruct (tuple_check_spec ts x) as (vs & x' & -> & MV & (FV & B) & (X1 & X2 & X3)).
      exists (IsTuple (length ts) vs), x'. split; [reflexivity|]. split; [now constructor|]. split; [assumption|].
      assert (length ts = length ps) as L by (eapply Forall2_len; eassumption).
      split; [cbn; congruence|]. split; [unfold same_kind; cbn; congruence|]. auto.
    - exists IsEmptyList, x. cbn. repeat split; auto; try (intros v []; fail); try constructor; try lia.
    - cbn in M. injection M as <-. cbn [fresh_runtime_check]. destruct (list_check_spec t x) as (f & rr & x' & -> & V1 & V2 & (FV & B) & (X1 & X2 & X3)).
      eexists _, x'. split; [reflexivity|]. split; [now constructor|]. split; [assumption|]. split; [reflexivity|]. split; [reflexivity|]. auto.
    - rewrite MM in M. injection M as <-. cbn [fresh_runtime_check]. rewrite NN. destruct (variant_check_spec i kk x) as (c & x' & vs & -> & -> & MV & (FV & B) & (X1 & X2 & X3)).
      eexists _, x'. split; [reflexivity|]. split; [econstructor; first [eassumption|reflexivity]|]. split; [assumption|]. split; [reflexivity|]. split; [reflexivity|]. auto.
  Qed.

  Lemma known_pattern m p k : mode_of env (var_type pv) = Done m -> okt true (var_type pv) (T p) -> refutable p ->
    to_runtime_check_kind p = Some k -> is_matching_on_unreachable_variant p m = false -> is_infinite m = false -> known m k.
  Proof.
    generalize (var_type pv). intros ty M O R K U I.
    inversion O as [| | |top z|top f|top s TD|top s name r TD SR| | |top ts ps F|top t|top t a r OA OR|top mo n args inferred ks i kk used name module ps MM NN IN F]; subst; cbn in R; try contradiction; cbn in K; try discriminate; injection K as <-;
      try (cbn in M; injection M as <-; cbn in I; try discriminate).
    - cbn. f_equal. symmetry. eapply Forall2_len; eassumption.
    - cbn. auto.
    - cbn. auto.
    - rewrite MM in M. injection M as <-. cbn in *. destruct inferred as [j|].
      + apply negb_false_iff in U. apply Nat.eqb_eq in U. now subst.
      + exists i. split; [reflexivity|]. apply nth_error_Some. congruence.
  Qed.

  Lemma exclusive_step bs s b p cs m x :
    mode_of env (var_type pv) = Done m -> exclusive (var_type pv) ->
    Forall (okb G0 n0) bs -> okb G0 n0 b -> Permutation (checks b) ((pv, T p) :: cs) -> refutable p ->
    is_matching_on_unreachable_variant p m = false ->
    static bs s (variable_id x) -> dynamic bs s -> exinv m s ->
    exists s' x', padd_checked pv p (with_checks b cs) m s x = Done (s', x') /\
      static (bs ++ [b]) s' (variable_id x') /\ dynamic (bs ++ [b]) s' /\ exinv m s' /\ moves_to x x'.
  Proof.
    intros M X OB O P R U ST DY (E1 & E2 & E3).
    destruct (okb_pivot _ _ _ _ _ _ _ _ _ _ O P) as (VP & OP & LP & _).
    destruct (refutable_kind _ _ X OP R) as (k & KP & KE).
    pose proof (exclusive_overlaps s k KE) as CV.
    assert (forall j c l, nth_error (choices s) j = Some (c, l) -> tcheck (var_type pv) c) as TC.
    { destruct ST as (_ & _ & _ & _ & G & _ & CO). intros j c l N. rewrite Forall_forall in CO.
      apply nth_error_In in N. apply CO in N. apply N. }
    destruct (add_step env outside float_is finite float_value guards guards_perm pv G0 n0 bs s b p cs k m x _ _ OB O P R KP ST DY CV)
      as (s' & x' & EQ & ST' & DY' & (cs' & extra & C1 & C2 & C3 & C4 & C5) & X1 & X2 & X3).
    - destruct (get_index k (indices s)); cbn; repeat constructor. intros [].
    - intros i I. destruct (get_index k (indices s)) as [i'|] eqn:GI; [|destruct I]. destruct I as [<-|[]].
      apply E1 in GI as (c & l & N & CK). exists c, l. split; [assumption|].
      assert (same_kind c p) as SK by (unfold same_kind; congruence). split; [|auto].
      eapply exclusive_pushable; eauto.
    - intros _. now apply new_check.
    - intros st H GD TM. destruct (get_index k (indices s)) as [i|] eqn:GI.
      + left. pose proof GI as GI'. apply E1 in GI' as (c & l & N & CK). 
        assert (same_kind c p) as SK by (unfold same_kind; congruence).
        pose proof (same_kind_passes env outside float_is finite pv c p _ (TC _ _ _ N) OP R SK H TM) as PA.
        destruct (passes c (st (id pv))) as [bnd|] eqn:PE; [|congruence].
        exists i, c, l, bnd. split; [|now left]. split; [assumption|]. split; [assumption|].
        intros j c' l' L N'. destruct (passes c' (st (id pv))) eqn:PE'; [|reflexivity]. exfalso.
        assert (same_kind c' p) as SK' by (eapply exclusive_passes; eauto; congruence).
        unfold same_kind in SK'. rewrite KP in SK'. assert (get_index k (indices s) = Some j) by (apply E1; eauto). rewrite GI in *. injection H0 as <-. lia.
      + right. left. split; [|reflexivity]. intros j c' l' N'. destruct (passes c' (st (id pv))) eqn:PE'; [|reflexivity]. exfalso.
        assert (same_kind c' p) as SK' by (eapply exclusive_passes; eauto; congruence).
        unfold same_kind in SK'. rewrite KP in SK'. assert (get_index k (indices s) = Some j) by (apply E1; eauto). congruence.
    - exists s', x'. split; [assumption|]. split; [assumption|]. split; [assumption|]. split; [|repeat split; assumption].
      assert (forall j c l, nth_error (choices s) j = Some (c, l) -> exists c' l', nth_error cs' j = Some (c', l') /\ check_kind c' = check_kind c) as FW.
      { intros j c l N. destruct (C4 _ _ _ N) as (c' & l' & N' & RN & _). exists c', l'. split; [assumption|]. now apply renamed_kind. }
      assert (forall j c' l', nth_error cs' j = Some (c', l') -> exists c l, nth_error (choices s) j = Some (c, l) /\ check_kind c' = check_kind c) as BW.
      { intros j c' l' N. destruct (nth_error (choices s) j) as [[c l]|] eqn:E.
        - exists c, l. split; [reflexivity|]. destruct (FW _ _ _ E) as (c2 & l2 & N2 & KK). congruence.
        - apply nth_error_None in E. assert (j < length cs') by (apply nth_error_Some; congruence). lia. }
      assert (forall c l, In (c, l) cs' -> is_ignored c = true -> l = fallback s) as IG.
      { intros c' l' I IGN. apply In_nth_error in I as [j N]. destruct (BW _ _ _ N) as (c & l & N0 & _).
        destruct (C4 _ _ _ N0) as (c2 & l2 & N2 & RN & HH). rewrite N in N2. injection N2 as <- <-.
        destruct HH as [(I & _ & HP)|(I & -> & ->)].
        - exfalso. destruct (get_index k (indices s)) as [i'|] eqn:GI; [|destruct I]. destruct I as [<-|[]].
          apply E1 in GI as (c3 & l3 & N3 & CK). rewrite N0 in N3. injection N3 as <- <-.
          destruct p; try discriminate KP; try (rewrite (HP _ _ _ _ _ eq_refl) in IGN; discriminate IGN);
            cbn in KP; injection KP as <-; destruct c; try discriminate CK; inversion RN; subst; discriminate IGN.
        - apply (E3 c l); [|assumption]. eapply nth_error_In; eassumption. }
      destruct (get_index k (indices s)) as [i|] eqn:GI; cbn [option_list is_empty] in C5.
      + destruct C5 as (-> & I1 & I2). rewrite app_nil_r in C1. split; [|split].
        * intros k' i'. rewrite I1, E1, C1. split; intros (c & l & N & CK).
          -- destruct (FW _ _ _ N) as (c' & l' & N' & KK). exists c', l'. split; congruence.
          -- destruct (BW _ _ _ N) as (c' & l' & N' & KK). exists c', l'. split; congruence.
        * intros k' KN. rewrite I1. auto.
        * intros c l I. rewrite C1 in I. rewrite C3. eauto.
      + destruct C5 as (c & b' & -> & CK & GB & I1 & I2).
        assert (indices s' = (k, length (choices s)) :: indices s) as I1' by (rewrite I1; destruct k; try contradiction; reflexivity).
        split; [|split].
        * intros k' i'. rewrite I1', get_index_cons, C1. destruct (kind_eqb k' k) eqn:KK.
          -- apply kind_eqb_iff in KK as ->. split.
             ++ intros [= <-]. exists c, (fallback s ++ [b']). split; [|assumption]. rewrite nth_error_app2 by lia. now rewrite C2, Nat.sub_diag.
             ++ intros (c0 & l0 & N & CK'). destruct (Nat.lt_ge_cases i' (length cs')) as [L|L].
                ** rewrite nth_error_app1 in N by assumption. destruct (BW _ _ _ N) as (c1 & l1 & N1 & KK).
                   assert (get_index k (indices s) = Some i') by (apply E1; exists c1, l1; split; congruence). congruence.
                ** rewrite nth_error_app2 in N by assumption. assert (i' - length cs' = 0) as Z0.
                   { destruct (i' - length cs') as [|[|]]; [reflexivity|discriminate..]. }
                   f_equal. lia.
          -- rewrite E1. split; intros (c0 & l0 & N & CK').
             ++ destruct (FW _ _ _ N) as (c1 & l1 & N1 & KK1). exists c1, l1. split; [|congruence].
                rewrite nth_error_app1; [assumption|]. apply nth_error_Some. congruence.
             ++ destruct (Nat.lt_ge_cases i' (length cs')) as [L|L].
                ** rewrite nth_error_app1 in N by assumption. destruct (BW _ _ _ N) as (c1 & l1 & N1 & KK1). exists c1, l1. split; congruence.
                ** rewrite nth_error_app2 in N by assumption. destruct (i' - length cs') as [|[|]]; [|discriminate..].
                   cbn in N. injection N as <- <-. rewrite CK in CK'. injection CK' as <-.
                   assert (kind_eqb k k = true) by now apply kind_eqb_iff. congruence.
        * intros k' KN. rewrite I1', get_index_cons. destruct (kind_eqb k' k); [discriminate|auto].
        * intros c0 l0 I IGN. rewrite C1 in I. rewrite C3. apply in_app_iff in I as [I|[[= <- <-]|[]]]; [eauto|].
          exfalso. destruct (is_infinite m) eqn:INF.
          -- destruct c; try discriminate IGN. cbn in CK. injection CK as <-. destruct p; try discriminate KP.
             clear - M OP INF. revert M OP. generalize (var_type pv). intros ty M OP.
             inversion OP as [| | | | | | | | | | | |top mo n args inferred ks i kk used name0 module0 ps MM NN IN F]; subst.
             rewrite MM in M. injection M as <-. discriminate.
          -- apply (E2 k); [|assumption]. eapply known_pattern; eassumption.
  Qed.

  (** A finite type has no other checks than the known ones. *)
  Definition only_known (m : branch_mode) (s : splitter tree) : Prop :=
    is_infinite m = false -> forall k i, get_index k (indices s) = Some i -> known m k.
  Lemma known_step p br m s x s' x' : mode_of env (var_type pv) = Done m -> exclusive (var_type pv) ->
    okt true (var_type pv) (T p) -> refutable p -> is_matching_on_unreachable_variant p m = false -> exinv m s ->
    padd_checked pv p br m s x = Done (s', x') -> only_known m s -> only_known m s'.
  Proof.
    intros M X OP R U (_ & E2 & _) E OK INF. specialize (OK INF).
    destruct (refutable_kind _ _ X OP R) as (k & KP & KE).
    pose proof (exclusive_overlaps s k KE) as CV. pose proof (E2 k (known_pattern m p k M OP R KP U INF)) as GI.
    assert (indices s' = indices s) as ->; [|exact OK].
    destruct (get_index k (indices s)) as [i|]; [|congruence]. unfold padd_checked in E. rewrite KP, CV in E. cbn [option_list is_empty] in E.
    destruct p; try discriminate KP;
      (destruct (padd_to_choices _ _ _ _ _) as [cs| |]; [|discriminate|discriminate]); cbn [bind] in E; injection E as <- _; reflexivity.
  Qed.
End Kinds.
