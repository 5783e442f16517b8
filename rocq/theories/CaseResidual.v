(** What is left of a check once the pivot has been tested. *)
From Coq Require Import ZArith NArith Bool List Lia Permutation.
From Verif Require Import Text Strings StringsSpec Bits BitsSpec BitsProofs Case CaseSpec CaseText CasePure CaseSem CaseStatic CaseMove.
Import ListNotations.
Local Open Scope nat_scope.

Lemma bind_all_notin bnd : forall st j, ~ In j (map fst bnd) -> bind_all bnd st j = st j.
Proof.
  induction bnd as [|[i v] bnd IH]; cbn; intros st j N; [reflexivity|]. rewrite IH by tauto.
  destruct (Nat.eqb_spec j i); [subst; tauto|reflexivity].
Qed.
Lemma bind_all_in bnd : forall st j v, NoDup (map fst bnd) -> In (j, v) bnd -> bind_all bnd st j = v.
Proof.
  induction bnd as [|[i w] bnd IH]; cbn; intros st j v N I; [tauto|]. inversion N; subst. destruct I as [[= <- <-]|I].
  - rewrite bind_all_notin by assumption. now rewrite Nat.eqb_refl.
  - now apply IH.
Qed.
Lemma map_fst_combine {A B} (la : list A) (lb : list B) : length la = length lb -> map fst (combine la lb) = la.
Proof. revert lb. induction la; intros [|b lb]; cbn; try discriminate; [reflexivity|]. intros [= L]. now rewrite IHla. Qed.
Lemma in_combine_nth {A B} (la : list A) : forall (lb : list B) i a b, nth_error la i = Some a -> nth_error lb i = Some b ->
  In (a, b) (combine la lb).
Proof.
  induction la as [|x la IH]; intros [|y lb] [|i] a b; cbn; try discriminate.
  - intros [= ->] [= ->]. now left.
  - intros. right. eauto.
Qed.
Lemma Forall2_len {A B} (R : A -> B -> Prop) la lb : Forall2 R la lb -> length la = length lb.
Proof. induction 1; cbn; congruence. Qed.

Definition check_vars (c : check) : list cvar :=
  match c with
  | IsStringPrefix _ r => [r]
  | IsTuple _ vs | IsVariant _ _ _ vs => vs
  | IsNonEmptyList f r => [f; r]
  | _ => []
  end.
Definition fresh_vars (c : check) : Prop := NoDup (map id (check_vars c)).

(** The choices a pattern may be added to. *)
Definition pushable (c : check) (p : pattern tree) : Prop :=
  match c, p with
  | IsStringPrefix w _, AString s => starts_with w s = true
  | IsStringPrefix w _, AStringPrefix s _ _ => starts_with w s = true \/ starts_with s w = true
  | c, p => check_kind c = to_runtime_check_kind p
  end.
Definition same_kind (c : check) (p : pattern tree) : Prop := check_kind c = to_runtime_check_kind p.

Section Residual.
  Context (env : environment)
          (outside : text -> Z)
          (float_is : text -> endianness -> list bool -> bool)
          (finite : endianness -> list bool -> bool).
  Notation hold := (holds outside float_is finite).
  Notation passes := (passes outside float_is finite).
  Notation tmatch := (tmatch outside float_is finite).
  Notation tmatches := (tmatches outside float_is finite).
  Notation checks_match := (checks_match outside float_is finite).
  Notation has_type := (has_type env).
  Notation okt := (okt env outside float_is finite).
  Notation tgood := (tgood outside float_is finite).
  Notation bad := (bad env).

  Inductive tcheck : ctype -> check -> Prop :=
    | tck_int z : tcheck CInt (IsInt z)
    | tck_float z : tcheck CFloat (IsFloat z)
    | tck_string s : tidy s -> tcheck CString (IsString s)
    | tck_prefix s r : tidy s -> var_type r = CString -> tcheck CString (IsStringPrefix s r)
    | tck_tuple ts vs : map var_type vs = ts -> tcheck (CTuple ts) (IsTuple (length ts) vs)
    | tck_nil t : tcheck (CList t) IsEmptyList
    | tck_cons t f r : var_type f = t -> var_type r = CList t -> tcheck (CList t) (IsNonEmptyList f r)
    | tck_variant m n args inferred ks i k mt ls vs :
        mode_of env (CNamed m n args inferred) = Done (MNamed ks inferred) -> nth_error ks i = Some k ->
        map var_type vs = map snd (c_parameters k) -> ls = labels_from 0 (c_parameters k) ->
        tcheck (CNamed m n args inferred) (IsVariant mt i ls vs).

  Lemma passes_typed ty c x bnd : tcheck ty c -> has_type x ty -> passes c x = Some bnd ->
    exists vals, bnd = combine (map id (check_vars c)) vals /\ Forall2 has_type vals (map var_type (check_vars c)).
  Proof.
    intros K H P. destruct K as [z|z|s T|s r T E|ts vs E|t|t f r E1 E2|m n args inferred ks i k mt ls vs M N E LS]; cbn [check_vars].
    - destruct (typed_int env _ H) as [z' ->]. cbn in P. destruct (Z.eq_dec z z'); [|discriminate]. injection P as <-. exists []. split; [reflexivity|constructor].
    - destruct (typed_float env _ H) as [z' ->]. cbn in P. destruct (N.eq_dec z z'); [|discriminate]. injection P as <-. exists []. split; [reflexivity|constructor].
    - destruct (typed_string env _ H) as [u ->]. cbn [CaseSpec.passes] in P. destruct (list_eq_dec _ _ _); [|discriminate]. injection P as <-. exists []. split; [reflexivity|constructor].
    - destruct (typed_string env _ H) as [u ->]. cbn [CaseSpec.passes] in P. destruct (list_eq_dec _ _ _); [|discriminate]. injection P as <-.
      exists [VString (skipn (length (text_of s)) u)]. cbn. rewrite E. split; [reflexivity|]. repeat constructor.
    - destruct (typed_tuple env _ _ H) as (xs & -> & F). cbn in P. injection P as <-. exists xs. rewrite E. auto.
    - destruct (typed_list env _ _ H) as (xs & -> & F). cbn in P. destruct xs; [|discriminate]. injection P as <-. exists []. split; [reflexivity|constructor].
    - destruct (typed_list env _ _ H) as (xs & -> & F). cbn in P. destruct xs as [|y xs]; [discriminate|]. injection P as <-.
      exists [y; VList xs]. cbn. rewrite E1, E2. inversion F; subst. split; [reflexivity|]. repeat constructor; assumption.
    - destruct (named_values env _ _ _ _ _ _ _ _ M N H) as (j & k' & xs & -> & N' & F & _). cbn in P.
      destruct (Nat.eq_dec i j); [|discriminate]. injection P as <-. subst j. rewrite N' in N. injection N as ->.
      exists xs. rewrite E. auto.
  Qed.
  (** The store after a check that passes. *)
  Lemma bound_below vs : forall vals (st : store) j n, (forall v, In v vs -> n <= id v) -> j < n ->
    bind_all (combine (map id vs) vals) st j = st j.
  Proof.
    intros vals st j n B L. apply bind_all_notin. intros I. apply in_map_iff in I as ([i w] & E & I). cbn in E. subst i.
    apply in_combine_l in I. apply in_map_iff in I as (v & <- & I). specialize (B v I). lia.
  Qed.
  Lemma bound_values vs : NoDup (map id vs) -> forall vals (st : store), length vals = length vs ->
    map (fun v => bind_all (combine (map id vs) vals) st (id v)) vs = vals.
  Proof.
    intros N vals st L. apply nth_error_ext. intros i. rewrite nth_error_map.
    destruct (nth_error vs i) as [v|] eqn:E.
    - destruct (nth_error vals i) as [x|] eqn:E2.
      + cbn. f_equal. apply bind_all_in.
        * rewrite map_fst_combine; [assumption|]. now rewrite map_length.
        * apply (in_combine_nth _ _ i); [|assumption]. now apply map_nth_error.
      + apply nth_error_None in E2. assert (i < length vs) by (apply nth_error_Some; congruence). lia.
    - cbn. apply nth_error_None in E. symmetry. apply nth_error_None. lia.
  Qed.

  (** The sub-trees on the variables of the check. *)
  Lemma combine_spec (vs : list cvar) ts : map var_type vs = ts -> forall ps, Forall2 (okt false) ts ps ->
    Forall (fun q => okt true (var_type (fst q)) (snd q)) (combine vs ps) /\
    map fst (combine vs ps) = vs /\ map snd (combine vs ps) = ps /\ csize (combine vs ps) = list_sum (map tsize ps).
  Proof.
    intros E ps F. revert vs E. induction F as [|t p ts ps O F IH]; intros [|v vs] E; try discriminate.
    - repeat split; constructor.
    - cbn in E. injection E as E1 E2. destruct (IH vs E2) as (A & B & C & D). cbn [combine map fst snd].
      rewrite B, C. split; [|split; [reflexivity|split; [reflexivity|]]].
      + constructor; [|assumption]. cbn. rewrite E1. now apply okt_top.
      + change (tsize p + csize (combine vs ps) = tsize p + list_sum (map tsize ps)). lia.
  Qed.
  Lemma combine_match vs : forall ps vals st', length ps = length vs -> map (fun v => st' (id v)) vs = vals ->
    checks_match (combine vs ps) st' = tmatches ps vals.
  Proof.
    induction vs as [|v vs IH]; intros [|p ps] vals st' L E; cbn in *; try discriminate; subst; [reflexivity|].
    cbn. now rewrite (IH ps _ st' (f_equal pred L) eq_refl).
  Qed.
  Lemma combine_good (vs : list cvar) ts : map var_type vs = ts -> forall ps vals (st' : store), Forall2 (okt false) ts ps ->
    Forall2 has_type vals ts -> map (fun v => st' (id v)) vs = vals ->
    Forall (fun q => has_type (st' (id (fst q))) (var_type (fst q)) /\ tgood (st' (id (fst q))) (snd q)) (combine vs ps).
  Proof.
    intros E ps vals st' F. revert vs vals E. induction F as [|t p ts ps O F IH]; intros [|v vs] vals E H V; try discriminate; cbn.
    - constructor.
    - cbn in E, V. injection E as E1 E2. subst. inversion H; subst.
      constructor; [|eapply IH; [reflexivity|eassumption|reflexivity]]. cbn. split; [assumption|]. eapply okt_tgood; eassumption.
  Qed.

  Definition new_vars (v : cvar) (c : check) (new : list (cvar * tree)) : Prop :=
    map fst new = check_vars c \/ new = [] \/ exists s a b, new = [(v, T (AStringPrefixSlice s a b))].

  Lemma text_cases {A} (p u : text) (a b : A) :
    (exists r, u = p ++ r /\ (if list_eq_dec N.eq_dec p (firstn (length p) u) then a else b) = a /\ skipn (length p) u = r) \/
    ((forall r, u <> p ++ r) /\ (if list_eq_dec N.eq_dec p (firstn (length p) u) then a else b) = b).
  Proof.
    destruct (list_eq_dec N.eq_dec p (firstn (length p) u)) as [E|E].
    - left. exists (skipn (length p) u). split; [|auto]. rewrite E at 1. symmetry. apply firstn_skipn.
    - right. split; [|reflexivity]. intros r ->. apply E. rewrite firstn_app, firstn_all, Nat.sub_diag. cbn. now rewrite app_nil_r.
  Qed.
  Definition good_new (ty : ctype) (v : cvar) (c : check) (p : pattern tree) (new : list (cvar * tree)) : Prop :=
    Forall (fun q => okt true (var_type (fst q)) (snd q)) new /\
    new_vars v c new /\
    csize new <= tsize (T p) /\ (same_kind c p -> csize new < tsize (T p)) /\
    (irref (T p) = true -> Forall (fun q => irref (snd q) = true) new) /\
    (forall q, In q new -> bad (var_type (fst q)) (snd q) -> bad ty (T p)) /\
    (forall st bnd, has_type (st (id v)) ty -> passes c (st (id v)) = Some bnd -> fresh_vars c ->
       ~ In (id v) (map id (check_vars c)) ->
       Forall (fun q => has_type (bind_all bnd st (id (fst q))) (var_type (fst q)) /\
                        tgood (bind_all bnd st (id (fst q))) (snd q)) new /\
       peq (tmatch (T p) (st (id v))) (checks_match new (bind_all bnd st))).

  Lemma nth_combine {A B} (la : list A) : forall (lb : list B) a b, In (a, b) (combine la lb) ->
    exists i, nth_error la i = Some a /\ nth_error lb i = Some b.
  Proof.
    induction la as [|x la IH]; intros [|y lb] a b I; cbn in I; try tauto. destruct I as [[= -> ->]|I].
    - now exists 0.
    - destruct (IH lb a b I) as (i & A1 & A2). now exists (S i).
  Qed.

  Lemma good_nil ty v c p : csize [] < tsize (T p) -> 
    (forall st bnd, has_type (st (id v)) ty -> passes c (st (id v)) = Some bnd -> peq (tmatch (T p) (st (id v))) (Some [])) ->
    good_new ty v c p [].
  Proof.
    intros S M. split; [constructor|]. split; [right; now left|]. split; [lia|]. split; [auto|]. split; [intros _; constructor|].
    split; [contradiction|]. intros st bnd H P _ _. split; [constructor|]. cbn [CaseSem.checks_match]. eauto.
  Qed.

  Lemma new_spec ty v p c : okt true ty (T p) -> refutable p -> tcheck ty c -> pushable c p -> var_type v = ty ->
    exists new, pnew_checks v p c = Done new /\ good_new ty v c p new.
  Proof.
    intros O R K PU.
    destruct p as [|z|f|s|s name rest|s pn rn|n q|n|ps|i un_ nm md ps|a r| |ts]; try (destruct R; fail).
    - (* int *)
      destruct c; cbn in PU; try discriminate. injection PU as ->. inversion K; subst. intros VT.
      exists []. split; [reflexivity|]. apply good_nil; [cbn; lia|]. intros st bnd H P.
      destruct (typed_int env _ H) as [z' E]. rewrite E in *. cbn in *. destruct (Z.eq_dec z z'); [constructor|discriminate].
    - (* float *)
      destruct c; cbn in PU; try discriminate. injection PU as ->. inversion K; subst. intros VT.
      exists []. split; [reflexivity|]. apply good_nil; [cbn; lia|]. intros st bnd H P.
      destruct (typed_float env _ H) as [z' E]. rewrite E in *. cbn in *. destruct (N.eq_dec f z'); [constructor|discriminate].
    - (* string *)
      inversion O as [| | | | |? ? TS| | | | | | |]; subst. intros VT.
      destruct c as [| |s'|w r| | | | |]; cbn in PU; try discriminate.
      + injection PU as ->. exists []. split; [reflexivity|]. apply good_nil; [cbn; lia|]. intros st bnd H P.
        destruct (typed_string env _ H) as [u E]. rewrite E in *. cbn [CaseSpec.passes CaseSem.tmatch] in *.
        destruct (list_eq_dec _ _ _); [constructor|discriminate].
      + inversion K as [| | |? ? TW VR| | | |]; subst. apply starts_with_iff in PU as [rem ->].
        destruct (tidy_strip w (w ++ rem) rem TW TS eq_refl) as [TR TE].
        exists [(r, T (AString rem))]. cbn [pnew_checks].
        replace (strip_prefix w (w ++ rem)) with (Some rem) by (symmetry; now apply strip_prefix_some).
        split; [reflexivity|]. split; [|split; [now left|split; [cbn; lia|split; [|split; [|split]]]]].
        * constructor; [|constructor]. cbn. rewrite VR. now constructor.
        * intros SK. discriminate SK.
        * discriminate.
        * intros q [<-|[]] B. cbn in B. inversion B.
        * intros st bnd H P FV NI. destruct (typed_string env _ H) as [u E]. rewrite E in *.
          cbn [CaseSpec.passes] in P. destruct (text_cases (text_of w) u (Some [(id r, VString (skipn (length (text_of w)) u))]) None)
            as [(x & -> & E1 & E2)|[_ E1]]; rewrite E1 in P; [|discriminate]. injection P as <-. rewrite E2. cbn [bind_all].
          split.
          { constructor; [|constructor]. cbn [fst snd]. rewrite Nat.eqb_refl, VR. split; [constructor|exact I]. }
          cbn [CaseSem.checks_match CaseSem.tmatch]. rewrite Nat.eqb_refl, TE.
          destruct (list_eq_dec N.eq_dec (text_of w ++ text_of rem) (text_of w ++ x)) as [E3|E3],
            (list_eq_dec N.eq_dec (text_of rem) x) as [E4|E4]; cbn; auto.
          -- apply app_inv_head in E3. tauto.
          -- subst. tauto.
    - (* prefix *)
      cbn in R. subst name. inversion O as [| | | | | |? ? ? ? TS SR| | | | | |]; subst. intros VT.
      destruct c as [| |s'|w r| | | | |]; cbn in PU; try discriminate.
      inversion K as [| | |? ? TW VR| | | |]; subst. cbn [pnew_checks].
      destruct (strip_prefix w s) as [rem|] eqn:SP.
      + apply strip_prefix_some in SP as ->.
        destruct (tidy_strip w (w ++ rem) rem TW TS eq_refl) as [TR TE].
        assert (forall t' : tree, okt true CString t' -> tsize t' <= 2 + length rem ->
          (rem = [] -> tsize t' = 1) ->
          (irref t' = false \/ simple_rest t') ->
          (forall x, tmatch t' (VString x) =
             if list_eq_dec N.eq_dec (text_of rem) (firstn (length (text_of rem)) x)
             then tmatch rest (VString (skipn (length (text_of rem)) x)) else None) ->
          (forall t, ~ bad t t') -> (forall x, tgood x t') ->
          good_new CString v (IsStringPrefix w r) (AStringPrefix (w ++ rem) None rest) [(r, t')]) as KEY.
        { intros t' OT SZ SE IR M NB TG. split; [|split; [now left|split; [|split; [|split; [|split]]]]].
          - constructor; [|constructor]. cbn. rewrite VR. assumption.
          - unfold csize. cbn [map snd tsize]. rewrite app_length. simpl. lia.
          - intros SK. unfold same_kind in SK. cbn in SK. injection SK as SK.
            assert (rem = []) as -> by (apply (app_inv_head w); rewrite app_nil_r; now symmetry).
            unfold csize. cbn [map snd tsize]. rewrite app_length. simpl. rewrite SE by reflexivity. lia.
          - discriminate.
          - intros q [<-|[]] B. cbn in B. destruct (NB _ B).
          - intros st bnd H P FV NI. destruct (typed_string env _ H) as [u E]. rewrite E in *.
            cbn [CaseSpec.passes] in P. destruct (text_cases (text_of w) u (Some [(id r, VString (skipn (length (text_of w)) u))]) None)
              as [(x & -> & E1 & E2)|[_ E1]]; rewrite E1 in P; [|discriminate]. injection P as <-. rewrite E2. cbn [bind_all].
            split.
            { constructor; [|constructor]. cbn [fst snd]. rewrite Nat.eqb_refl, VR. split; [constructor|apply TG]. }
            cbn [CaseSem.checks_match]. rewrite Nat.eqb_refl, both_nil, M. cbn [CaseSem.tmatch]. rewrite TE. cbn [named]. rewrite nil_both.
            rewrite app_length, skipn_app.
            replace (skipn (length (text_of w) + length (text_of rem)) (text_of w)) with (@nil N)
              by (symmetry; apply skipn_all2; lia).
            replace (length (text_of w) + length (text_of rem) - length (text_of w)) with (length (text_of rem)) by lia.
            rewrite firstn_app_2. cbn [app].
            destruct (list_eq_dec N.eq_dec (text_of w ++ text_of rem) _) as [E3|E3],
              (list_eq_dec N.eq_dec (text_of rem) _) as [E4|E4]; try apply peq_refl.
            + apply app_inv_head in E3. tauto.
            + exfalso. apply E3. now f_equal. }
        assert (okt true CString rest) as OR by (destruct SR as [->|[k ->]]; constructor).
        destruct rem as [|c0 rem].
        * exists [(r, rest)]. split; [reflexivity|]. apply KEY; auto.
          -- destruct SR as [->|[k ->]]; cbn; lia.
          -- intros _. destruct SR as [->|[k ->]]; reflexivity.
          -- intros t B. destruct SR as [->|[k ->]]; inversion B.
          -- intros x. destruct SR as [->|[k ->]]; exact I.
        * exists [(r, T (AStringPrefix (c0 :: rem) None rest))]. split; [reflexivity|]. apply KEY; auto.
          -- now constructor.
          -- discriminate.
          -- intros x. cbn [CaseSem.tmatch named]. destruct (list_eq_dec _ _ _); [|reflexivity]. now rewrite nil_both.
          -- intros t B. inversion B.
          -- intros x. exact I.
      + assert (starts_with s w = true) as SW.
        { destruct PU as [PU|PU]; [|assumption]. apply starts_with_iff in PU as [x ->].
          exfalso. apply (proj1 (strip_prefix_none _ _) SP x). reflexivity. }
        apply starts_with_iff in SW as [d D].
        destruct (tidy_strip s w d TS TW D) as [TD TE].
        assert (forall st bnd, has_type (st (id v)) CString -> passes (IsStringPrefix w r) (st (id v)) = Some bnd ->
          exists u, st (id v) = VString (text_of s ++ u) /\
            tmatch (T (AStringPrefix s None rest)) (st (id v)) = tmatch rest (VString u) /\
            (~ In (id v) [id r] -> bind_all bnd st (id v) = st (id v))) as DYN.
        { intros st bnd H P. destruct (typed_string env _ H) as [u E]. rewrite E in *.
          cbn [CaseSpec.passes] in P. destruct (text_cases (text_of w) u (Some [(id r, VString (skipn (length (text_of w)) u))]) None)
            as [(x & -> & E1 & E2)|[_ E1]]; rewrite E1 in P; [|discriminate]. injection P as <-.
          exists (text_of d ++ x). rewrite TE, <- app_assoc. split; [reflexivity|]. split.
          - cbn [CaseSem.tmatch named]. rewrite firstn_app, firstn_all, Nat.sub_diag. cbn [firstn]. rewrite app_nil_r.
            destruct (list_eq_dec N.eq_dec (text_of s) (text_of s)) as [_|]; [|congruence].
            rewrite skipn_app, skipn_all, Nat.sub_diag. cbn [skipn app]. now rewrite nil_both.
          - intros NI. cbn [bind_all]. destruct (Nat.eqb_spec (id v) (id r)) as [E3|]; [cbn in NI; intuition congruence|].
            now rewrite E, TE, <- app_assoc. }
        destruct SR as [->|[k ->]]; cbn [un].
        * exists []. split; [reflexivity|]. apply good_nil; [cbn; lia|]. intros st bnd H P.
          destruct (DYN st bnd H P) as (u & _ & -> & _). constructor.
        * exists [(v, T (AStringPrefixSlice s None (Some k)))]. split; [reflexivity|].
          split; [|split; [right; right; eauto|split; [cbn; lia|split; [|split; [|split]]]]].
          -- constructor; [|constructor]. cbn. rewrite VT. constructor.
          -- intros _. cbn. lia.
          -- discriminate.
          -- intros q [<-|[]] B. cbn in B. inversion B.
          -- intros st bnd H P FV NI. destruct (DYN st bnd H P) as (u & E & E2 & E3). specialize (E3 NI). split.
             { constructor; [|constructor]. cbn [fst snd]. rewrite E3, VT. split; [assumption|exact I]. }
             rewrite E2. cbn [CaseSem.checks_match]. rewrite E3, both_nil, E. cbn [CaseSem.tmatch named slice_value app].
             rewrite skipn_app, skipn_all, Nat.sub_diag. cbn. apply Permutation_refl.
    - (* tuple *)
      destruct c; cbn in PU; try discriminate. injection PU as ->.
      inversion O as [| | | | | | | | |? ts ? F2| | |]; subst. intros VT. inversion K as [| | | |? ? E| | |]; subst.
      destruct (combine_spec elements _ eq_refl ps F2) as (A & B & C & D).
      exists (combine elements ps). split; [reflexivity|].
      split; [assumption|]. split; [now left|]. split; [rewrite D; cbn [tsize]; lia|]. split; [intros _; rewrite D; cbn [tsize]; lia|].
      split; [|split].
      + cbn [irref]. intros IR. rewrite forallb_forall in IR. apply Forall_forall. intros q I. apply IR.
        rewrite <- C. now apply in_map.
      + intros [w t] I BD. cbn in BD. destruct (nth_combine _ _ _ _ I) as (l & N1 & N2).
        eapply bad_tuple; [apply map_nth_error, N1|exact N2|exact BD].
      + intros st bnd H P FV NI. destruct (typed_tuple env _ _ H) as (xs & E2 & F). rewrite E2 in *. cbn in P. injection P as <-.
        pose proof (Forall2_len _ _ _ F) as L. rewrite map_length in L.
        pose proof (Forall2_len _ _ _ F2) as L2. rewrite map_length in L2.
        pose proof (bound_values elements FV xs st L) as BV. split.
        * eapply combine_good; [reflexivity|eassumption|eassumption|assumption].
        * rewrite tmatch_tuple, (combine_match elements ps xs); [apply peq_refl|congruence|assumption].
    - (* variant *)
      destruct c; cbn in PU; try discriminate. injection PU as ->.
      inversion O as [| | | | | | | | | | | |? m n args inferred ks ? k ? ? ? ? M N IN F2]; subst. intros VT.
      inversion K as [| | | | | | |? ? ? ? ks' ? k' ? ? ? M' N' E]; subst. rewrite M in M'. injection M' as <-. rewrite N in N'. injection N' as <-.
      destruct (combine_spec fields _ E ps F2) as (A & B & C & D).
      exists (combine fields ps). split; [reflexivity|].
      split; [assumption|]. split; [now left|]. split; [rewrite D; cbn [tsize]; lia|]. split; [intros _; rewrite D; cbn [tsize]; lia|].
      split; [discriminate|]. split.
      + intros [w t] I BD. cbn in BD. destruct (nth_combine _ _ _ _ I) as (l & N1 & N2).
        eapply bad_variant; [exact M|exact N| |exact N2|exact BD]. rewrite <- E. now apply map_nth_error.
      + intros st bnd H P FV NI. destruct (named_values env _ _ _ _ _ _ _ _ M N H) as (j & k' & xs & E2 & N' & F & _).
        rewrite E2 in *. cbn in P. destruct (Nat.eq_dec i j); [|discriminate]. injection P as <-. subst j.
        rewrite N' in N. injection N as ->.
        pose proof (Forall2_len _ _ _ F) as L. rewrite <- E, map_length in L.
        pose proof (Forall2_len _ _ _ F2) as L2. rewrite <- E, map_length in L2.
        pose proof (bound_values fields FV xs st L) as BV. split.
        * eapply combine_good; [exact E|eassumption|eassumption|assumption].
        * rewrite tmatch_variant. destruct (Nat.eq_dec i i); [|congruence].
          rewrite (combine_match fields ps xs); [apply peq_refl|congruence|assumption].
    - (* non empty list *)
      destruct c; cbn in PU; try discriminate.
      inversion O as [| | | | | | | | | | |? t ? ? OA OR|]; subst. intros VT. inversion K as [| | | | | |? ? ? E1 E2|]; subst.
      exists [(first, a); (rest, r)]. split; [reflexivity|].
      split; [|split; [now left|split; [unfold csize; cbn; lia|split; [intros _; unfold csize; cbn; lia|split; [discriminate|split]]]]].
      + repeat constructor; cbn; apply okt_top; [assumption|]. now rewrite E2.
      + intros q [<-|[<-|[]]] B; cbn in B; [now apply bad_first|]. apply bad_rest. now rewrite <- E2.
      + intros st bnd H P FV NI. destruct (typed_list env _ _ H) as (xs & E & F). rewrite E in *.
        cbn in P. destruct xs as [|y xs]; [discriminate|]. injection P as <-. inversion F; subst.
        assert (id first <> id rest) as N by (inversion FV as [|? ? NI2 _]; subst; cbn in NI2; intuition congruence).
        cbn [bind_all fst snd CaseSem.checks_match CaseSem.tmatch].
        assert ((id first =? id rest) = false) as N2 by now apply Nat.eqb_neq.
        split.
        * repeat constructor; cbn [fst snd]; rewrite ?Nat.eqb_refl, ?N2; auto; try (eapply okt_tgood; eassumption).
          rewrite E2. now constructor.
        * rewrite ?Nat.eqb_refl, ?N2, both_nil. apply peq_refl.
    - (* empty list *)
      destruct c; cbn in PU; try discriminate. inversion K; subst. intros VT.
      exists []. split; [reflexivity|]. apply good_nil; [cbn; lia|]. intros st bnd H P.
      destruct (typed_list env _ _ H) as (xs & E & F). rewrite E in *. cbn in *. destruct xs; [constructor|discriminate].
    - destruct c; cbn in PU; try discriminate. inversion K.
  Qed.
End Residual.
