(** When a decision tree ends without a clause: values that nothing matches follow one of its
    ways, and each way is followed by some values. *)
From Coq Require Import ZArith NArith Bool List Lia Permutation.
From Verif Require Import Text Strings StringsSpec Bits BitsSpec BitsProofs Case CaseSpec CaseText CasePure CaseSem CaseStatic CaseMove CaseResidual CaseDeriv CaseNice CaseSplit CaseKinds CaseCompile CasePaths.
Import ListNotations.
Local Open Scope nat_scope.

Section Falls.
  Context (env : environment)
          (outside : text -> Z)
          (float_is : text -> endianness -> list bool -> bool)
          (finite : endianness -> list bool -> bool)
          (float_value : text -> val).
  Notation passes := (passes outside float_is finite).
  Notation run := (run outside float_is finite float_value none).
  Notation has_type := (has_type env).
  Notation tcheck := (tcheck env).
  Notation check_ok := (check_ok env).
  Notation wfd := (wfd env outside float_is finite).

  (** The checks of a way all hold, of the values of one store. *)
  Definition sat (st : store) (es : list (cvar * check)) : Prop :=
    Forall (fun e => exists bnd, passes (snd e) (st (id (fst e))) = Some bnd /\ Forall (fun q => st (fst q) = snd q) bnd) es.
  Definition typed (st : store) (L : list cvar) : Prop := forall v, In v L -> has_type (st (id v)) (var_type v).

  Fixpoint pick (cs : list (check * decision)) (x : val) : option (decision * list (nat * val)) :=
    match cs with
    | [] => None
    | (c, d) :: cs => match passes c x with Some bnd => Some (d, bnd) | None => pick cs x end
    end.
  Lemma run_switch v cs fb fc st : run (Switch v cs fb fc) st =
    match pick cs (st (id v)) with
    | Some (d, bnd) => run d (bind_all bnd st)
    | None =>
        match fc with
        | FallbackRuntimeCheck c => match passes c (st (id v)) with Some bnd => run fb (bind_all bnd st) | None => None end
        | InfiniteCatchAll | CatchAll _ => run fb st
        end
    end.
  Proof.
    induction cs as [|[c d] cs IH]; [reflexivity|]. cbn [pick]. cbn [CaseSpec.run]. destruct (passes c (st (id v))); [reflexivity|exact IH].
  Qed.
  Lemma pick_some cs x d bnd : pick cs x = Some (d, bnd) -> exists c, In (c, d) cs /\ passes c x = Some bnd.
  Proof.
    induction cs as [|[c d'] cs IH]; cbn; [discriminate|]. destruct (passes c x) as [b|] eqn:P.
    - intros [= <- <-]. exists c. split; [now left|assumption].
    - intros H. destruct (IH H) as (c' & I & Q). exists c'. split; [now right|assumption].
  Qed.
  Lemma pick_none cs x : pick cs x = None <-> forall c, In c (map fst cs) -> passes c x = None.
  Proof.
    induction cs as [|[c d] cs IH]; cbn; [split; [intros _ c []|reflexivity]|]. destruct (passes c x) as [b|] eqn:P.
    - split; [discriminate|]. intros H. rewrite (H c) in P by now left. discriminate.
    - rewrite IH. split; [intros H c' [<-|I]; auto|auto].
  Qed.
  Lemma pick_here l1 c d l2 x bnd : (forall c', In c' (map fst l1) -> passes c' x = None) -> passes c x = Some bnd ->
    pick (l1 ++ (c, d) :: l2) x = Some (d, bnd).
  Proof.
    intros N P. induction l1 as [|[c' d'] l1 IH]; cbn; [now rewrite P|]. rewrite (N c') by now left. apply IH. intros c'' I. apply N. now right.
  Qed.

  Lemma passes_ok fl n n' v c x bnd : check_ok fl n n' v c -> has_type x (var_type v) -> passes c x = Some bnd ->
    exists vals, bnd = combine (map id (check_vars c)) vals /\ Forall2 has_type vals (map var_type (check_vars c)).
  Proof.
    intros ([TC|[EB [t ->]]] & _) H P; [eapply passes_typed; eassumption|]. exists []. cbn [check_vars map combine]. split; [|constructor].
    destruct x; cbn [CaseSpec.passes] in P; try discriminate. destruct (holds _ _ _ _ _); [now injection P as <-|discriminate].
  Qed.
  Lemma bound_typed fl n n' v c L st bnd : check_ok fl n n' v c -> (forall w, In w L -> id w < n) -> In v L -> typed st L ->
    passes c (st (id v)) = Some bnd ->
    typed (bind_all bnd st) (without v L ++ check_vars c) /\ (forall i, i < n -> bind_all bnd st i = st i) /\
    Forall (fun q => bind_all bnd st (fst q) = snd q /\ n <= fst q < n') bnd /\
    (forall st' w, In w (check_vars c) -> bind_all bnd st (id w) = bind_all bnd st' (id w)).
  Proof.
    intros CK BL VL TY P. destruct (passes_ok _ _ _ _ _ _ _ CK (TY v VL) P) as (vals & -> & FV). destruct CK as (_ & FR & BV & _).
    pose proof (Forall2_len _ _ _ FV) as LN. rewrite map_length in LN.
    assert (forall i, i < n -> bind_all (combine (map id (check_vars c)) vals) st i = st i) as LOW.
    { intros i L'. apply (bound_below (check_vars c) vals st i n); [intros w I; apply BV, I|assumption]. }
    pose proof (fun st => bound_values (check_vars c) FR vals st LN) as BVAL.
    split; [|split; [exact LOW|split]].
    - intros w I. apply in_app_iff in I as [I|I].
      + apply in_without in I. rewrite LOW by now apply BL. now apply TY.
      + apply In_nth_error in I as (j & N). specialize (BVAL st). apply (f_equal (fun l => nth_error l j)) in BVAL.
        rewrite nth_error_map, N in BVAL. cbn in BVAL. symmetry in BVAL.
        clear - FV N BVAL. revert j N BVAL. generalize (bind_all (combine (map id (check_vars c)) vals) st (id w)). revert FV. generalize (check_vars c). clear.
        intros vs F. remember (map var_type vs) as ts eqn:E. revert vs E. induction F as [|x t vals ts H F IH]; intros [|u vs] E y [|j] N B; try discriminate.
        * cbn in *. injection E as -> ->. injection N as ->. injection B as ->. assumption.
        * cbn in *. injection E as -> E. eapply IH; eassumption.
    - apply Forall_forall. intros [i x] I. cbn [fst snd]. split.
      + apply bind_all_in; [|assumption]. rewrite map_fst_combine; [exact FR|]. now rewrite map_length.
      + apply in_combine_l in I. apply in_map_iff in I as (w & <- & I). now apply BV.
    - intros st' w I. apply In_nth_error in I as (j & N).
      pose proof (f_equal (fun l => nth_error l j) (BVAL st)) as E1. pose proof (f_equal (fun l => nth_error l j) (BVAL st')) as E2.
      cbn beta in E1, E2. rewrite nth_error_map, N in E1, E2. cbn in E1, E2. congruence.
  Qed.

  (** A tree only looks at its variables. *)
  Lemma run_ext fl n L d : wfd fl n L d -> forall st st', typed st L -> (forall v, In v L -> st (id v) = st' (id v)) ->
    run d st = None -> run d st' = None.
  Proof.
    induction 1 as [n L b|n L|n L g b d W IH|n n' L v cs fb fc ND BL VL LE NK CK INF FIN WC IHC WF IHF]; intros st st' TY AG R;
      [discriminate|reflexivity|exact (IH st st' TY AG R)|].
    rewrite run_switch in R. rewrite run_switch. rewrite <- (AG v VL).
    assert (typed st' L) as TY' by (intros w I; rewrite <- (AG w I); now apply TY).
    assert (forall c bnd, In c (map fst cs ++ fallback_checks fc) -> passes c (st (id v)) = Some bnd ->
      typed (bind_all bnd st) (without v L ++ check_vars c) /\ forall w, In w (without v L ++ check_vars c) -> bind_all bnd st (id w) = bind_all bnd st' (id w)) as K.
    { intros c bnd IC P. rewrite Forall_forall in CK. destruct (bound_typed fl n n' v c L st bnd (CK c IC) BL VL TY P) as (T1 & A1 & _ & B1). split; [assumption|].
      rewrite (AG v VL) in P. destruct (bound_typed fl n n' v c L st' bnd (CK c IC) BL VL TY' P) as (_ & A2 & _).
      intros w I. apply in_app_iff in I as [I|I]; [|now apply B1]. apply in_without in I. rewrite A1, A2 by now apply BL. now apply AG. }
    assert (forall w, In w (without v L ++ []) -> has_type (st (id w)) (var_type w) /\ st (id w) = st' (id w)) as K0.
    { intros w I. rewrite app_nil_r in I. apply in_without in I. split; [now apply TY|now apply AG]. }
    destruct (pick cs (st (id v))) as [[d bnd]|] eqn:PK.
    - destruct (pick_some _ _ _ _ PK) as (c & IC & P). destruct (K c bnd) as [A B]; [apply in_or_app; left; apply in_map_iff; exists (c, d); auto|assumption|].
      exact (IHC c d IC _ _ A B R).
    - destruct fc as [|c|ign]; cbn [fallback_vars] in *.
      + apply (IHF st st'); auto; intros w I; now apply K0.
      + destruct (passes c (st (id v))) as [bnd|] eqn:P; [|reflexivity].
        destruct (K c bnd) as [A B]; [apply in_elt|assumption|]. exact (IHF _ _ A B R).
      + apply (IHF st st'); auto; intros w I; now apply K0.
  Qed.

  Lemma sat_cons fl n n' v c L st bnd st' es : check_ok fl n n' v c -> (forall w, In w L -> id w < n) -> In v L -> typed st L ->
    passes c (st (id v)) = Some bnd -> n <= n' -> (forall i, i < n' -> st' i = bind_all bnd st i) -> sat st' es ->
    (forall i, i < n -> st' i = st i) /\ sat st' ((v, c) :: es).
  Proof.
    intros CK BL VL TY P LE AG S. destruct (bound_typed fl n n' v c L st bnd CK BL VL TY P) as (_ & A & F & _).
    assert (forall i, i < n -> st' i = st i) as LOW by (intros i L1; rewrite AG by lia; now apply A).
    split; [assumption|]. constructor; [|assumption]. exists bnd. cbn [fst snd]. rewrite LOW by now apply BL. split; [assumption|].
    eapply Forall_impl; [|exact F]. intros q [E B]. rewrite AG by lia. exact E.
  Qed.

  (** Values that nothing matches follow a way. *)
  Theorem falls_way fl n L d : wfd fl n L d -> forall st, typed st L -> run d st = None ->
    exists es st', path d es /\ (forall i, i < n -> st' i = st i) /\ sat st' es.
  Proof.
    induction 1 as [n L b|n L|n L g b d W IH|n n' L v cs fb fc ND BL VL LE NK CK INF FIN WC IHC WF IHF]; intros st TY R.
    - discriminate.
    - exists [], st. split; [constructor|]. split; [reflexivity|constructor].
    - destruct (IH st TY R) as (es & st' & P & A & S). exists es, st'. split; [now constructor|auto].
    - rewrite run_switch in R. rewrite Forall_forall in CK.
      assert (typed st (without v L ++ [])) as T0.
      { intros w I. rewrite app_nil_r in I. apply in_without in I. now apply TY. }
      destruct (pick cs (st (id v))) as [[d bnd]|] eqn:PK.
      + destruct (pick_some _ _ _ _ PK) as (c & IC & P). assert (In c (map fst cs ++ fallback_checks fc)) as IC' by (apply in_or_app; left; apply in_map_iff; exists (c, d); auto).
        destruct (bound_typed fl n n' v c L st bnd (CK c IC') BL VL TY P) as (T1 & _). destruct (IHC c d IC _ T1 R) as (es & st' & PA & A & S).
        destruct (sat_cons fl n n' v c L st bnd st' es (CK c IC') BL VL TY P LE A S) as [A' S']. exists ((v, c) :: es), st'. split; [eapply path_choice; eassumption|auto].
      + rewrite pick_none in PK.
        assert (forall c bnd, In c (fallback_checks fc) -> passes c (st (id v)) = Some bnd -> run fb (bind_all bnd st) = None -> typed (bind_all bnd st) (without v L ++ fallback_vars fc) ->
          exists es st', path (Switch v cs fb fc) es /\ (forall i, i < n -> st' i = st i) /\ sat st' es) as K.
        { intros c bnd IC P RN T1. assert (In c (map fst cs ++ fallback_checks fc)) as IC' by (apply in_or_app; now right).
          destruct (IHF _ T1 RN) as (es & st' & PA & A & S). destruct (sat_cons fl n n' v c L st bnd st' es (CK c IC') BL VL TY P LE A S) as [A' S'].
          exists ((v, c) :: es), st'. split; [now apply path_fallback|auto]. }
        destruct fc as [|c|ign]; cbn [fallback_checks fallback_vars] in *.
        * destruct (IHF _ T0 R) as (es & st' & PA & A & S). exists es, st'. split; [now apply path_infinite|]. split; [|assumption]. intros i L1. apply A. lia.
        * destruct (FIN ltac:(discriminate)) as [_ TOT]. destruct (TOT _ (TY v VL)) as (c' & IC' & PN).
          apply in_app_iff in IC' as [IC'|[<-|[]]]; [rewrite PK in PN by assumption; congruence|].
          destruct (passes c (st (id v))) as [bnd|] eqn:P; [|congruence]. apply (K c bnd); [now left|assumption|assumption|].
          apply (bound_typed fl n n' v c L st bnd (CK c (in_elt _ _ _)) BL VL TY P).
        * destruct (FIN ltac:(discriminate)) as [_ TOT]. destruct (TOT _ (TY v VL)) as (c & IC' & PN). pose proof (CK c IC') as CKc.
          apply in_app_iff in IC' as [IC'|IC']; [rewrite PK in PN by assumption; congruence|].
          destruct (passes c (st (id v))) as [bnd|] eqn:P; [|congruence].
          destruct (bound_typed fl n n' v c L st bnd CKc BL VL TY P) as (T1 & A1 & _).
          assert (forall w, In w (without v L ++ []) -> st (id w) = bind_all bnd st (id w)) as AG.
          { intros w I. rewrite app_nil_r in I. apply in_without in I. symmetry. apply A1. now apply BL. }
          apply (K c bnd); [assumption|assumption|eapply run_ext; eassumption|].
          intros w I. rewrite <- (AG w I). now apply T0.
  Qed.
End Falls.
