(** The compiler on trees: the decision tree runs the first branch that matches, every branch
    that may run is marked as reached, and a missing case is noticed. *)
From Coq Require Import ZArith NArith Bool List Lia Permutation.
From Verif Require Import Text Strings StringsSpec Bits BitsSpec BitsProofs Case CaseSpec CaseText CasePure CaseSem CaseStatic CaseMove CaseResidual CaseDeriv CaseNice CaseSplit CaseKinds CaseStringSplit CaseBitSplit CaseLoop.
Import ListNotations.
Local Open Scope nat_scope.

Section Compile.
  Context (env : environment)
          (outside : text -> Z)
          (float_is : text -> endianness -> list bool -> bool)
          (finite : endianness -> list bool -> bool)
          (float_value : text -> val)
          (guards : nat -> list (text * val) -> bool)
          (guards_perm : forall c l m, Permutation l m -> guards c l = guards c m).
  Notation passes := (passes outside float_is finite).
  Notation run := (run outside float_is finite float_value guards).
  Notation selected := (selected outside float_is finite float_value guards).
  Notation first_match := (first_match outside float_is finite float_value guards).
  Notation has_type := (has_type env).
  Notation okt := (okt env outside float_is finite).
  Notation okb := (okb env outside float_is finite).
  Notation goodb := (goodb env outside float_is finite).
  Notation badb := (badb env).
  Notation inv := (inv env outside float_is finite).
  Notation choose := (choose outside float_is finite).
  Notation unchosen := (unchosen outside float_is finite).
  Notation part_ok := (part_ok env outside float_is finite).
  Notation total := (total env outside float_is finite).

  Definition agrees (r : option (nat * list (text * val))) (o : outcome) : Prop :=
    match r, o with
    | Some (c, l), Some (_, d, m) => c = d /\ Permutation l m
    | None, None => True
    | _, _ => False
    end.
  Lemma agrees_same r a b : agrees r a -> same_outcome a b -> agrees r b.
  Proof.
    clear. destruct r as [[c l]|], a as [[[i d] m]|], b as [[[j e] k]|]; cbn; try tauto.
    intros [-> P] (_ & -> & Q). split; [reflexivity|]. eapply Permutation_trans; eassumption.
  Qed.

  (** The clauses marked as reached stay so, but those that match on the wrong variant. *)
  Definition kept (bs : list (branch tree)) (x x' : context) : Prop :=
    forall i, In i (reachable x) -> In i (reachable x') \/ exists b, In b bs /\ branch_id b = i /\ badb b.
  Definition later (bs : list (branch tree)) (x x' : context) : Prop :=
    variable_id x <= variable_id x' /\ (missing x = true -> missing x' = true) /\ kept bs x x'.
  Definition compiled (bs : list (branch tree)) (x : context) (d : decision) (x' : context) : Prop :=
    later bs x x' /\
    forall st, Forall (goodb st) bs ->
      agrees (run d st) (first_match bs st) /\
      (forall i c l, first_match bs st = Some (i, c, l) -> In i (reachable x')) /\
      (first_match bs st = None -> missing x' = true).

  Lemma later_refl bs x : later bs x x.
  Proof. split; [lia|]. split; [auto|]. intros i I. now left. Qed.
  Lemma later_trans bs x y z : later bs x y -> later bs y z -> later bs x z.
  Proof.
    intros (A1 & A2 & A3) (B1 & B2 & B3). split; [lia|]. split; [auto|]. intros i I.
    destruct (A3 i I) as [J|J]; [|now right]. now apply B3.
  Qed.
  Lemma later_part G n bs l x x' : part_ok G n bs l -> later l x x' -> later bs x x'.
  Proof.
    intros (_ & _ & P) (A1 & A2 & A3). split; [assumption|]. split; [assumption|]. intros i I.
    destruct (A3 i I) as [J|(b' & IB & E & B)]; [now left|]. right. destruct (P b' IB) as (b & J & E' & H). exists b.
    split; [assumption|]. split; [congruence|auto].
  Qed.

  Lemma first_match_in bs st i c l : first_match bs st = Some (i, c, l) ->
    exists b, In b bs /\ branch_id b = i /\ selected b st <> None.
  Proof.
    induction bs as [|b bs IH]; cbn; [discriminate|]. destruct (selected b st) eqn:E.
    - intros [= <- _ _]. exists b. split; [now left|]. split; [reflexivity|]. congruence.
    - intros H. destruct (IH H) as (b' & I & R). exists b'. split; [now right|assumption].
  Qed.
  Lemma nodup_id bs (a b : branch tree) : NoDup (map branch_id bs) -> In a bs -> In b bs -> branch_id a = branch_id b -> a = b.
  Proof.
    clear. induction bs as [|c bs IH]; intros ND IA IB E; [destruct IA|]. inversion ND as [|? ? NI ND']; subst.
    destruct IA as [->|IA], IB as [->|IB]; auto.
    - exfalso. apply NI. rewrite E. now apply in_map.
    - exfalso. apply NI. rewrite <- E. now apply in_map.
  Qed.
  Lemma not_bad G n bs st i c l b : inv G n bs -> Forall (goodb st) bs -> first_match bs st = Some (i, c, l) ->
    In b bs -> branch_id b = i -> badb b -> False.
  Proof.
    intros (_ & _ & ND) GD F IB E BB. destruct (first_match_in _ _ _ _ _ F) as (b' & I & E' & S).
    assert (b = b') as <- by (apply (nodup_id bs); auto; congruence). apply S.
    rewrite Forall_forall in GD. apply (badb_none env); auto.
  Qed.

  (** ** Switches *)
  Lemma all_choices_spec (compile : list (branch tree) -> context -> out (decision * context)) G n bs cs :
    Forall (fun ch => part_ok G n bs (snd ch)) cs ->
    (forall l x, part_ok G n bs l -> n <= variable_id x -> exists d x', compile l x = Done (d, x') /\ compiled l x d x') ->
    forall x, n <= variable_id x -> exists ds x', compile_all_choices compile cs x = Done (ds, x') /\ later bs x x' /\
      Forall2 (fun ch cd => fst ch = fst cd /\ exists y y', compiled (snd ch) y (snd cd) y' /\ later bs y' x') cs ds.
  Proof.
    intros F HC. induction cs as [|[c l] cs IH]; intros x LE; cbn [compile_all_choices].
    - exists [], x. split; [reflexivity|]. split; [apply later_refl|constructor].
    - inversion F as [|? ? PL F']; subst. cbn [snd] in PL. destruct (HC l x PL LE) as (d & x1 & -> & C). cbn [bind].
      pose proof (later_part _ _ _ _ _ _ PL (proj1 C)) as L1. destruct (IH F' x1) as (ds & x2 & -> & L2 & F2); [destruct L1; lia|].
      exists ((c, d) :: ds), x2. split; [reflexivity|]. split; [eapply later_trans; eassumption|]. constructor; [|assumption].
      split; [reflexivity|]. exists x, x1. auto.
  Qed.

  (** What a switch runs. *)
  Lemma run_cases v cs ds (R : check * list (branch tree) -> check * decision -> Prop) d fc st :
    Forall2 (fun ch cd => fst ch = fst cd /\ R ch cd) cs ds ->
    (exists c l e bnd, In (c, l) cs /\ R (c, l) (c, e) /\ passes c (st (id v)) = Some bnd /\
       (forall fb, choose cs fb (st (id v)) st = (l, bind_all bnd st)) /\
       run (Switch v ds d fc) st = run e (bind_all bnd st)) \/
    (unchosen cs (st (id v)) /\
     run (Switch v ds d fc) st =
       match fc with
       | FallbackRuntimeCheck c =>
           match passes c (st (id v)) with Some bnd => run d (bind_all bnd st) | None => None end
       | InfiniteCatchAll | CatchAll _ => run d st
       end).
  Proof.
    induction 1 as [|[c l] [c' e] cs ds [E RR] F IH]; cbn [CaseSpec.run].
    - right. split; [|reflexivity]. intros [|j]; discriminate.
    - cbn [fst] in E. subst c'. cbn [CaseSplit.choose]. destruct (passes c (st (id v))) as [bnd|] eqn:P.
      + left. exists c, l, e, bnd. split; [now left|]. split; [assumption|]. split; [assumption|]. split; [reflexivity|reflexivity].
      + destruct IH as [(c1 & l1 & e1 & bnd & I & R1 & P1 & C1 & E1)|[U E1]].
        * left. exists c1, l1, e1, bnd. split; [now right|]. split; [assumption|]. split; [assumption|]. split; [assumption|exact E1].
        * right. split; [|exact E1]. intros [|j] c1 l1 N; [injection N as <- <-; assumption|exact (U j c1 l1 N)].
  Qed.

  Lemma unique_choose cs fb y st c l bnd :
    (forall i j c l c' l', nth_error cs i = Some (c, l) -> nth_error cs j = Some (c', l') ->
       passes c y <> None -> passes c' y <> None -> i = j) ->
    In (c, l) cs -> passes c y = Some bnd -> choose cs fb y st = (l, bind_all bnd st).
  Proof.
    intros U I P. apply In_nth_error in I as (i & N). eapply chosen_choose. split; [exact N|]. split; [exact P|].
    intros j c' l' L N'. destruct (passes c' y) eqn:P'; [|reflexivity]. exfalso.
    assert (i = j) by (eapply U; eauto; congruence). lia.
  Qed.

  Lemma find_pivot_spec G n first bs : okb G n first -> refutables first ->
    (checks first = [] /\ find_pivot env first bs = Done None) \/
    exists v p m, find_pivot env first bs = Done (Some v) /\ In (v, T p) (checks first) /\ mode_of env (var_type v) = Done m.
  Proof.
    intros (F & _ & _) R. unfold find_pivot. destruct (checks first) as [|c cs] eqn:E; [now left|]. right.
    assert (forall q, In q (c :: cs) -> exists m, mode_of env (var_type (fst q)) = Done m) as MO.
    { intros [v [p]] I. unfold refutables in R. rewrite E, Forall_forall in R. rewrite Forall_forall in F.
      destruct (F _ I) as [_ O]. specialize (R _ I). cbn [fst snd un] in *. revert O R. generalize (var_type v). clear. intros ty O R.
      inversion O; subst; cbn in R; try contradiction; try (eexists; reflexivity). eexists; eassumption. }
    assert (forall v m l k, In v (c :: cs) -> (forall q, In q l -> In q (c :: cs)) -> mode_of env (var_type (fst v)) = Done m ->
      exists w, min_by_key env bs (fst v) k l = Done (fst w) /\ In w (c :: cs)) as MIN.
    { intros v m l. revert v m. induction l as [|q l IH]; intros v m k IV IL MV; cbn [min_by_key].
      - exists v. auto.
      - destruct (MO q (IL q (or_introl eq_refl))) as (mq & MQ). unfold key at 1. rewrite MQ. cbn [bind].
        destruct (key_lt _ k).
        + apply (IH q mq); auto; [apply IL; now left|intros q' IQ; apply IL; now right].
        + apply (IH v m); auto. intros q' IQ; apply IL; now right. }
    destruct (MO c (or_introl eq_refl)) as (m0 & M0). unfold key at 1. rewrite M0. cbn [bind].
    destruct (MIN c m0 cs (branching_factor m0, references (fst c) bs) (or_introl eq_refl) (fun q I => or_intror I) M0) as ([v [p]] & -> & IV).
    destruct (MO _ IV) as (m & M). exists v, p, m. auto.
  Qed.

  Lemma switch_spec compile G0 n0 v p m first others x :
    inv G0 n0 (first :: others) -> Forall refutables (first :: others) -> In (v, T p) (checks first) ->
    mode_of env (var_type v) = Done m -> n0 <= variable_id x ->
    (forall G n l x, inv G n l -> n <= variable_id x -> weights l < weights (first :: others) ->
       exists d x', compile l x = Done (d, x') /\ compiled l x d x') ->
    exists d x', psplit_and_compile env compile v (first :: others) x = Done (d, x') /\ compiled (first :: others) x d x'.
  Proof.
    intros I RF IV M LE HC. unfold psplit_and_compile. rewrite M. cbn [bind].
    destruct (split_result env outside float_is finite float_value guards guards_perm v G0 n0 m p first others x I RF IV M LE)
      as (ks & x1 & s & x2 & EK & ES & CX & DY & TT & G & PC & PF & _).
    rewrite EK. cbn [bind]. rewrite ES. cbn [bind]. set (bs := first :: others) in *.
    assert (forall l y, part_ok G (variable_id x2) bs l -> variable_id x2 <= variable_id y ->
      exists d x', compile l y = Done (d, x') /\ compiled l y d x') as HC'.
    { intros l y (PI & PW & _) L. eapply HC; eassumption. }
    assert (later bs x x2) as LX.
    { destruct CX as (C1 & C2 & C3). split; [assumption|]. split; [congruence|exact C3]. }
    assert (forall st, Forall (goodb st) bs -> has_type (st (id v)) (var_type v)) as TY.
    { intros st GD. inversion GD as [|? ? GF _]; subst. unfold CaseStatic.goodb in GF. rewrite Forall_forall in GF. apply (GF _ IV). }
    (* the conclusion, from what is run *)
    assert (forall d x', later bs x2 x' ->
      (forall st, Forall (goodb st) bs -> exists l st' e y y', run d st = run e st' /\ compiled l y e y' /\ later bs y' x' /\
         Forall (goodb st') l /\ same_outcome (first_match bs st) (first_match l st')) -> compiled bs x d x') as FIN.
    { intros d x' LX' H. split; [eapply later_trans; eassumption|]. intros st GD.
      destruct (H st GD) as (l & st' & e & y & y' & -> & [_ C] & LY & GL & SO). destruct (C st' GL) as (A & B & D).
      split; [eapply agrees_same; [exact A|now apply (same_sym guards)]|]. split.
      - intros i c w E. pose proof SO as SO'. rewrite E in SO'. destruct (first_match l st') as [[[j c'] w']|] eqn:E'; [|destruct SO'].
        destruct SO' as (<- & _). specialize (B _ _ _ eq_refl). destruct LY as (_ & _ & K). destruct (K _ B) as [J|(b & IB & EB & BB)]; [assumption|].
        exfalso. eapply not_bad; eassumption.
      - intros E. rewrite E in SO. apply (same_sym guards) in SO. rewrite (same_none guards) in SO. destruct LY as (_ & MI & _). exact (MI (D SO)). }
    destruct (is_infinite m) eqn:INF.
    - unfold compile_switch. destruct (all_choices_spec compile G _ bs _ PC HC' x2) as (ds & x3 & -> & L3 & F2); [lia|]. cbn [bind].
      destruct (HC' (fallback s) x3 PF) as (d & x4 & -> & C4); [destruct L3; lia|]. cbn [bind].
      pose proof (later_part _ _ _ _ _ _ PF (proj1 C4)) as L4.
      eexists _, x4. split; [reflexivity|]. apply FIN; [eapply later_trans; eassumption|]. intros st GD.
      destruct (run_cases v _ _ _ d InfiniteCatchAll st F2) as [(c & l & e & bnd & IC & (y & y' & CY & LY) & PB & EC & ->)|[U ->]].
      + destruct (DY st l (bind_all bnd st) (TY st GD) GD (EC _)) as (_ & D2 & D3).
        exists l, (bind_all bnd st), e, y, y'. split; [reflexivity|]. split; [exact CY|]. split; [eapply later_trans; eassumption|]. auto.
      + destruct (DY st (fallback s) st (TY st GD) GD) as (_ & D2 & D3); [now apply unchosen_choose|].
        exists (fallback s), st, d, x3, x4. split; [reflexivity|]. split; [exact C4|]. split; [apply later_refl|]. auto.
    - destruct (TT eq_refl) as [(T1 & T2 & T3 & T4) IFB].
      destruct (is_empty (choices s)) eqn:EE; [destruct (choices s); [congruence|discriminate]|].
      unfold exhaustive_parts. destruct (existsb (fun c => is_ignored (fst c)) (choices s)) eqn:EX; cbn [bind].
      + unfold compile_switch.
        assert (Forall (fun ch => part_ok G (variable_id x2) bs (snd ch)) (filter (fun c => negb (is_ignored (fst c))) (choices s))) as PC'.
        { rewrite Forall_forall in *. intros ch IC. apply filter_In in IC as [IC _]. auto. }
        destruct (all_choices_spec compile G _ bs _ PC' HC' x2) as (ds & x3 & -> & L3 & F2); [lia|]. cbn [bind].
        destruct (HC' (fallback s) x3 PF) as (d & x4 & -> & C4); [destruct L3; lia|]. cbn [bind].
        pose proof (later_part _ _ _ _ _ _ PF (proj1 C4)) as L4.
        eexists _, x4. split; [reflexivity|]. apply FIN; [eapply later_trans; eassumption|]. intros st GD.
        destruct (run_cases v _ _ _ d (CatchAll (map fst (filter (fun c => is_ignored (fst c)) (choices s)))) st F2) as [(c & l & e & bnd & IC & (y & y' & CY & LY) & PB & EC & ->)|[U ->]].
        * apply filter_In in IC as [IC _].
          destruct (DY st l (bind_all bnd st) (TY st GD) GD) as (_ & D2 & D3).
          { eapply unique_choose; [|exact IC|exact PB]. intros. eapply (T3 (st (id v))); eauto. }
          exists l, (bind_all bnd st), e, y, y'. split; [reflexivity|]. split; [exact CY|]. split; [eapply later_trans; eassumption|]. auto.
        * destruct (T1 _ (TY st GD)) as (c & l & IC & PB). destruct (passes c (st (id v))) as [bnd|] eqn:PE; [|congruence].
          assert (is_ignored c = true) as IG.
          { destruct (is_ignored c) eqn:IG; [reflexivity|]. exfalso.
            assert (In (c, l) (filter (fun c => negb (is_ignored (fst c))) (choices s))) as IF by (apply filter_In; cbn; now rewrite IG).
            apply In_nth_error in IF as (j & N). rewrite (U j c l N) in PE. discriminate. }
          pose proof (T2 c l IC IG) as ->.
          destruct (DY st (fallback s) (bind_all bnd st) (TY st GD) GD) as (D1 & D2 & D3).
          { eapply unique_choose; [|exact IC|exact PE]. intros. eapply (T3 (st (id v))); eauto. }
          destruct IFB as (FO & _ & _). rewrite Forall_forall in FO.
          exists (fallback s), st, d, x3, x4. split; [reflexivity|]. split; [exact C4|]. split; [apply later_refl|]. split.
          -- rewrite Forall_forall in *. intros b IB. eapply goodb_ext; [apply (FO b IB)| |apply (D2 b IB)]. intros i L. symmetry. now apply D1.
          -- eapply same_trans; [exact D3|]. apply (first_match_ext outside float_is finite float_value guards guards_perm n0).
             ++ apply Forall_forall. intros b IB. apply (FO b IB).
             ++ intros i L. symmetry. now apply D1.
      + destruct (rev (choices s)) as [|[lc ll] oth] eqn:ER; [exfalso; apply T4; rewrite <- (rev_involutive (choices s)), ER; reflexivity|]. cbn [bind].
        assert (choices s = rev oth ++ [(lc, ll)]) as EQ by (rewrite <- (rev_involutive (choices s)), ER; reflexivity).
        unfold compile_switch.
        assert (Forall (fun ch => part_ok G (variable_id x2) bs (snd ch)) (rev oth) /\ part_ok G (variable_id x2) bs ll) as [PC' PL].
        { rewrite EQ in PC. apply Forall_app in PC as [A B]. inversion B; subst. auto. }
        destruct (all_choices_spec compile G _ bs _ PC' HC' x2) as (ds & x3 & -> & L3 & F2); [lia|]. cbn [bind].
        destruct (HC' ll x3 PL) as (d & x4 & -> & C4); [destruct L3; lia|]. cbn [bind].
        pose proof (later_part _ _ _ _ _ _ PL (proj1 C4)) as L4.
        eexists _, x4. split; [reflexivity|]. apply FIN; [eapply later_trans; eassumption|]. intros st GD.
        assert (forall c l bnd, In (c, l) (choices s) -> passes c (st (id v)) = Some bnd ->
          choose (choices s) (fallback s) (st (id v)) st = (l, bind_all bnd st)) as UC.
        { intros c l bnd IC PE. eapply unique_choose; [|exact IC|exact PE]. intros. eapply (T3 (st (id v))); eauto. }
        destruct (run_cases v _ _ _ d (FallbackRuntimeCheck lc) st F2) as [(c & l & e & bnd & IC & (y & y' & CY & LY) & PB & EC & ->)|[U ->]].
        * destruct (DY st l (bind_all bnd st) (TY st GD) GD) as (_ & D2 & D3).
          { apply UC with (c := c); [|assumption]. rewrite EQ. apply in_app_iff. now left. }
          exists l, (bind_all bnd st), e, y, y'. split; [reflexivity|]. split; [exact CY|]. split; [eapply later_trans; eassumption|]. auto.
        * destruct (T1 _ (TY st GD)) as (c & l & IC & PB). destruct (passes c (st (id v))) as [bnd|] eqn:PE; [|congruence].
          assert ((c, l) = (lc, ll)) as [= -> ->].
          { rewrite EQ in IC. apply in_app_iff in IC as [IC|[<-|[]]]; [|reflexivity]. apply In_nth_error in IC as (j & N). rewrite (U j c l N) in PE. discriminate. }
          rewrite PE. destruct (DY st ll (bind_all bnd st) (TY st GD) GD) as (D1 & D2 & D3); [eapply UC; eassumption|].
          exists ll, (bind_all bnd st), d, x3, x4. split; [reflexivity|]. split; [exact C4|]. split; [apply later_refl|]. auto.
  Qed.

  Lemma weight_pos b : 1 <= weight b.
  Proof. unfold weight. lia. Qed.

  Theorem pcompile_spec : forall fuel G n bs x, inv G n bs -> n <= variable_id x -> weights bs < fuel ->
    exists d x', pcompile env fuel bs x = Done (d, x') /\ compiled bs x d x'.
  Proof.
    induction fuel as [|fuel IH]; intros G n bs x I LE W; [lia|]. cbn [pcompile].
    destruct (pmove_all_spec env outside float_is finite float_value guards guards_perm G n bs I) as (bs' & -> & I' & MV & SO). cbn [bind].
    pose proof (movedb_weights _ _ MV) as W'.
    assert (forall b', In b' bs' -> exists b, In b bs /\ branch_id b' = branch_id b /\ (badb b' -> badb b)) as BACK.
    { clear - MV. induction MV as [|b b' bs bs' M F IH]; intros c [].
      - subst c. exists b. split; [now left|]. split; [apply M|]. now apply movedb_badb.
      - destruct (IH c H) as (b0 & I0 & R). exists b0. split; [now right|assumption]. }
    assert (forall d x', compiled bs' x d x' -> compiled bs x d x') as BS.
    { intros d x' ((L1 & L2 & L3) & C). split.
      - split; [assumption|]. split; [assumption|]. intros i IR. destruct (L3 i IR) as [J|(b' & IB & E & BB)]; [now left|].
        right. destruct (BACK b' IB) as (b & J & E' & H). exists b. split; [assumption|]. split; [congruence|auto].
      - intros st GD. destruct (SO st GD) as [GD' S]. destruct (C st GD') as (A & B & D). split; [eapply agrees_same; [exact A|now apply (same_sym guards)]|]. split.
        + intros i c l E. rewrite E in S. destruct (first_match bs' st) as [[[j c'] l']|] eqn:E'; [|destruct S].
          destruct S as (<- & _). eapply B. reflexivity.
        + intros E. rewrite E in S. apply (same_sym guards) in S. rewrite (same_none guards) in S. auto. }
    assert (Forall refutables bs') as RF.
    { clear - MV. induction MV as [|b b' bs bs' M F IH]; constructor; [apply M|assumption]. }
    destruct bs' as [|first others].
    - exists Fail, (mark_missing x). split; [reflexivity|]. apply BS. split.
      + split; [cbn; lia|]. split; [reflexivity|]. intros i IR. now left.
      + intros st _. cbn. split; [exact Logic.I|]. split; [discriminate|reflexivity].
    - pose proof I' as (FO & PC & ND). inversion FO as [|? ? OF FO']; subst. inversion RF as [|? ? RF1 RF']; subst.
      set (x1 := mark_as_reached (branch_id first) x).
      assert (later (first :: others) x x1) as LX.
      { split; [cbn; lia|]. split; [auto|]. intros i IR. left. now right. }
      assert (forall d x', compiled (first :: others) x1 d x' -> compiled (first :: others) x d x') as LATER.
      { intros d x' (L & C). split; [eapply later_trans; eassumption|exact C]. }
      destruct (find_pivot_spec G n first (first :: others) OF RF1) as [[EC ->]|(v & p & m & -> & IV & M)]; cbn [bind].
      + assert (forall st, branch_match outside float_is finite float_value first st = Some (body_values outside float_value st (branch_body first))) as BM.
        { intros st. unfold branch_match. rewrite EC. cbn [checks_match]. now rewrite both_nil. }
        destruct (guard first) as [g|] eqn:EG.
        * destruct (IH G n others x1) as (d & x' & -> & C').
          { destruct PC as [_ PC]. inversion ND; subst. split; [assumption|]. split; assumption. }
          { cbn. assumption. }
          { pose proof (weight_pos first). unfold weights in *. cbn [map list_sum fold_right] in W'. unfold list_sum in *. cbn [fold_right] in *. lia. }
          cbn [bind]. eexists _, x'. split; [reflexivity|]. apply BS, LATER. destruct C' as ((L1 & L2 & L3) & C'). split.
          -- split; [assumption|]. split; [assumption|]. intros i IR. destruct (L3 i IR) as [J|(b & IB & R)]; [now left|]. right. exists b. split; [now right|assumption].
          -- intros st GD. inversion GD as [|? ? GF GO]; subst. destruct (C' st GO) as (A & B & D). cbn [CaseSpec.run CaseSem.first_match].
             unfold CaseSem.selected. rewrite BM, EG. cbn [guard_holds].
             destruct (guards (guard_clause g) (body_values outside float_value st (branch_body first))) eqn:GH.
             ++ split; [cbn; auto|]. split; [|discriminate]. intros i c l [= <- _ _]. destruct (L3 (branch_id first)) as [J|(b & IB & E & BB)].
                ** now left.
                ** assumption.
                ** exfalso. inversion ND as [|? ? NI _]; subst. apply NI. rewrite <- E. now apply in_map.
             ++ auto.
        * eexists _, x1. split; [reflexivity|]. apply BS, LATER. split; [apply later_refl|]. intros st GD. cbn [CaseSpec.run CaseSem.first_match].
          unfold CaseSem.selected. rewrite BM, EG. cbn [guard_holds]. split; [cbn; auto|]. split; [|discriminate].
          intros i c l [= <- _ _]. now left.
      + destruct (switch_spec (pcompile env fuel) G n v p m first others x1) as (d & x' & -> & C'); auto.
        { intros G1 n1 l y I1 L1 W1. eapply IH; [exact I1|assumption|lia]. }
        exists d, x'. split; [reflexivity|]. apply BS, LATER, C'.
  Qed.
End Compile.
