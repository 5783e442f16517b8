(** Splitting on strings. *)
From Coq Require Import ZArith NArith Bool List Lia Permutation.
From Verif Require Import Text Strings StringsSpec Bits BitsSpec BitsProofs Case CaseSpec CaseText CasePure CaseSem CaseStatic CaseMove CaseResidual CaseDeriv CaseNice CaseSplit CaseKinds.
Import ListNotations.
Local Open Scope nat_scope.

(** ** Prefixes *)
Lemma starts_refl w : starts_with w w = true.
Proof. apply starts_with_iff. exists []. now rewrite app_nil_r. Qed.
Lemma starts_trans a b c : starts_with a b = true -> starts_with b c = true -> starts_with a c = true.
Proof. rewrite !starts_with_iff. intros [r ->] [q ->]. exists (r ++ q). now rewrite app_assoc. Qed.
Lemma starts_length a b : starts_with a b = true -> length a <= length b.
Proof. rewrite starts_with_iff. intros [r ->]. rewrite app_length. lia. Qed.
Lemma starts_antisym a b : starts_with a b = true -> length b <= length a -> a = b.
Proof.
  rewrite starts_with_iff. intros [r ->] L. rewrite app_length in L. destruct r; [now rewrite app_nil_r|cbn in L; lia].
Qed.
Lemma starts_comparable a : forall b c, starts_with a c = true -> starts_with b c = true -> length a <= length b -> starts_with a b = true.
Proof.
  intros b c. rewrite !starts_with_iff. intros [r E] [q F]. subst c. revert b q F.
  induction a as [|x a IH]; intros b q F L; [now exists b|]. destruct b as [|y b]; cbn in L; [lia|].
  cbn in F. injection F as -> F. destruct (IH b q F) as [s ->]; [lia|]. now exists s.
Qed.

Lemma longest_spec key trie : forall best,
  (forall b, best = Some b -> starts_with b key = true) ->
  match longest best key trie with
  | Some a => starts_with a key = true /\ (best = Some a \/ In a (map fst trie)) /\
      (forall b, best = Some b -> length b <= length a) /\
      (forall k, In k (map fst trie) -> starts_with k key = true -> length k <= length a)
  | None => best = None /\ forall k, In k (map fst trie) -> starts_with k key = false
  end.
Proof.
  induction trie as [|[k i] trie IH]; intros best B; cbn [longest map fst].
  - destruct best as [b|]; [|split; [reflexivity|intros k []]]. split; [auto|]. split; [now left|]. split; [intros b' [= <-]; lia|intros k []].
  - destruct (starts_with k key) eqn:S; cbn [andb].
    + destruct (match best with Some b => length b <? length k | None => true end) eqn:C.
      * specialize (IH (Some k)). destruct (longest (Some k) key trie) as [a|].
        -- destruct IH as (A1 & A2 & A3 & A4); [intros b [= <-]; assumption|]. split; [assumption|]. split; [destruct A2 as [[= <-]|A2]; right; [now left|now right]|].
           split.
           ++ intros b ->. apply Nat.ltb_lt in C. specialize (A3 k eq_refl). lia.
           ++ intros k' [<-|I] S'; [now apply A3|auto].
        -- destruct IH as [A _]; [intros b [= <-]; assumption|discriminate].
      * destruct best as [b0|]; [|discriminate]. specialize (IH (Some b0) B). destruct (longest (Some b0) key trie) as [a|].
        -- destruct IH as (A1 & A2 & A3 & A4). split; [assumption|]. split; [destruct A2; auto; right; now right|]. split; [assumption|].
           intros k' [<-|I] S'; [|auto]. apply Nat.ltb_ge in C. specialize (A3 b0 eq_refl). lia.
        -- destruct IH as [A _]. discriminate.
    + specialize (IH best B). destruct (longest best key trie) as [a|].
      * destruct IH as (A1 & A2 & A3 & A4). split; [assumption|]. split; [destruct A2; auto; right; now right|]. split; [assumption|].
        intros k' [<-|I] S'; [congruence|auto].
      * destruct IH as [A1 A2]. split; [assumption|]. intros k' [<-|I]; [assumption|auto].
Qed.
Lemma ancestor_some key trie a : get_ancestor key trie = Some a -> starts_with a key = true /\ In a (map fst trie) /\
  forall k, In k (map fst trie) -> starts_with k key = true -> length k <= length a.
Proof.
  intros E. pose proof (longest_spec key trie None ltac:(discriminate)) as H. unfold get_ancestor in E. rewrite E in H.
  destruct H as (A & [B|B] & _ & C); [discriminate|]. auto.
Qed.
Lemma ancestor_none key trie : get_ancestor key trie = None -> forall k, In k (map fst trie) -> starts_with k key = false.
Proof.
  intros E. pose proof (longest_spec key trie None ltac:(discriminate)) as H. unfold get_ancestor in E. rewrite E in H. apply H.
Qed.
Lemma NoDup_filter_map {A B} (f : A -> B) g l : NoDup (map f l) -> NoDup (map f (filter g l)).
Proof.
  induction l as [|a l IH]; cbn; [auto|]. intros H. inversion H; subst. destruct (g a); cbn; [|auto].
  constructor; [|auto]. intros I. apply H2. apply in_map_iff in I as (x & <- & I). apply filter_In in I as [I _]. now apply in_map.
Qed.

Section StringSplit.
  Context (env : environment)
          (outside : text -> Z)
          (float_is : text -> endianness -> list bool -> bool)
          (finite : endianness -> list bool -> bool)
          (float_value : text -> val)
          (guards : nat -> list (text * val) -> bool)
          (guards_perm : forall c l m, Permutation l m -> guards c l = guards c m).
  Notation passes := (passes outside float_is finite).
  Notation tmatch := (tmatch outside float_is finite).
  Notation checks_match := (checks_match outside float_is finite).
  Notation branch_match := (branch_match outside float_is finite float_value).
  Notation selected := (selected outside float_is finite float_value guards).
  Notation first_match := (first_match outside float_is finite float_value guards).
  Notation has_type := (has_type env).
  Notation okt := (okt env outside float_is finite).
  Notation okb := (okb env outside float_is finite).
  Notation goodb := (goodb env outside float_is finite).
  Notation tcheck := (tcheck env).
  Notation chosen := (chosen outside float_is finite).
  Notation unchosen := (unchosen outside float_is finite).
  Context (pv : cvar) (G0 : nat -> ctype) (n0 : nat).
  Notation static := (static env outside float_is finite pv G0 n0).
  Notation dynamic := (dynamic env outside float_is finite float_value guards pv n0).

  (** A branch with nothing that can fail but the pivot's check. *)
  Lemma irref_checks cs st : Forall (fun c => okt true (var_type (fst c)) (snd c)) cs ->
    Forall (fun c => has_type (st (id (fst c))) (var_type (fst c))) cs ->
    Forall (fun c => irref (snd c) = true) cs -> checks_match cs st <> None.
  Proof.
    induction cs as [|[v t] cs IH]; intros O H I; [discriminate|]. inversion O; inversion H; inversion I; subst. cbn [fst snd] in *.
    cbn [CaseSem.checks_match]. pose proof (irref_matches env outside float_is finite t true _ _ H2 H6 H10) as M.
    specialize (IH H3 H7 H11). destruct (tmatch t (st (id v))); [|congruence]. destruct (checks_match cs st); [discriminate|congruence].
  Qed.
  Lemma alone_selected b st p cs sibs : okb G0 n0 b -> goodb st b -> Permutation (checks b) ((pv, p) :: cs) ->
    alone b cs sibs -> tmatch p (st (id pv)) <> None -> selected b st <> None.
  Proof.
    intros O GB P (GU & A & _) TM. destruct (okb_pivot _ _ _ _ _ _ _ _ _ _ O P) as (_ & _ & _ & _ & _ & F & _).
    apply (Permutation_Forall P) in GB. inversion GB as [|? ? _ GC]; subst.
    assert (checks_match cs st <> None) as CM.
    { apply irref_checks; [| |assumption]; [eapply Forall_impl; [|exact F]|eapply Forall_impl; [|exact GC]]; cbn; tauto. }
    unfold CaseSem.selected, CaseSem.branch_match. pose proof (checks_match_perm outside float_is finite _ _ st P) as Q.
    cbn [CaseSem.checks_match] in Q. destruct (tmatch p (st (id pv))) as [l|]; [|congruence]. destruct (checks_match cs st) as [l'|]; [|congruence].
    cbn [both] in Q. destruct (checks_match (checks b) st) as [l''|]; [|destruct Q]. cbn [both]. rewrite GU. discriminate.
  Qed.
  Lemma first_in b bs st : In b bs -> selected b st <> None -> first_match bs st <> None.
  Proof.
    induction bs as [|a bs IH]; [intros []|]. intros [->|I] S; cbn [CaseSem.first_match].
    - destruct (selected b st); [discriminate|congruence].
    - destruct (selected a st); [discriminate|auto].
  Qed.

  (** Each choice is there because of some branch. *)
  Definition creator (bs : list (branch tree)) (c : check) (l : list (branch tree)) : Prop :=
    exists b p cs, In b bs /\ Permutation (checks b) ((pv, T p) :: cs) /\ same_kind c p /\ refutable p /\
      (has_binding_guard b = true -> existsb has_binding_guard l = true).
  Definition strinv (bs : list (branch tree)) (s : splitter tree) : Prop :=
    (forall w i, get_index (KString w) (indices s) = Some i <-> exists l, nth_error (choices s) i = Some (IsString w, l)) /\
    (forall w i, In (w, i) (prefix_indices s) <-> exists r l, nth_error (choices s) i = Some (IsStringPrefix w r, l)) /\
    NoDup (map snd (prefix_indices s)) /\
    (forall w i w' i', In (w, i) (prefix_indices s) -> In (w', i') (prefix_indices s) -> starts_with w w' = true ->
       (w = w' /\ i = i') \/ i' < i) /\
    (forall i c l, nth_error (choices s) i = Some (c, l) -> creator bs c l).

  Lemma string_passes c u : tcheck CString c -> passes c (VString u) <> None ->
    (exists w, c = IsString w /\ tidy w /\ u = text_of w) \/
    (exists w r t, c = IsStringPrefix w r /\ tidy w /\ u = text_of w ++ t).
  Proof.
    intros K P. inversion K; subst; cbn [CaseSpec.passes] in P.
    - left. exists s. destruct (list_eq_dec N.eq_dec (text_of s) u); [auto|congruence].
    - right. exists s, r. destruct (list_eq_dec N.eq_dec (text_of s) (firstn (length (text_of s)) u)) as [E|]; [|congruence].
      exists (skipn (length (text_of s)) u). split; [reflexivity|]. split; [assumption|]. rewrite E at 1. now rewrite firstn_skipn.
  Qed.
  Lemma prefix_passes w r u t : u = text_of w ++ t -> passes (IsStringPrefix w r) (VString u) <> None.
  Proof.
    intros ->. cbn [CaseSpec.passes]. rewrite firstn_app, firstn_all, Nat.sub_diag. cbn [firstn]. rewrite app_nil_r.
    destruct (list_eq_dec N.eq_dec (text_of w) (text_of w)); congruence.
  Qed.
  Lemma tidy_starts p s : tidy p -> tidy s -> (starts_with p s = true <-> exists r, text_of s = text_of p ++ r).
  Proof. intros P S. rewrite starts_with_iff. now apply tidy_prefix. Qed.
  (** Two prefixes of one text. *)
  Lemma tidy_comparable v w a b : tidy v -> tidy w -> text_of v ++ a = text_of w ++ b ->
    starts_with w v = true \/ (starts_with v w = true /\ v <> w).
  Proof.
    intros V W E. destruct (Nat.le_gt_cases (length (text_of w)) (length (text_of v))) as [L|L].
    - left. apply tidy_starts; auto. apply starts_with_iff. apply (starts_comparable _ _ (text_of v ++ a)); auto; apply starts_with_iff; eauto.
    - right. split; [|intros ->; lia]. apply tidy_starts; auto. apply starts_with_iff. apply (starts_comparable _ _ (text_of v ++ a)); [| |lia]; apply starts_with_iff; eauto.
  Qed.

  Section Covered.
    Context (bs : list (branch tree)) (s : splitter tree) (b : branch tree) (p : pattern tree) (cs : list (cvar * tree)).
    Context (PT : var_type pv = CString) (OB : Forall (okb G0 n0) bs) (O : okb G0 n0 b)
            (CO : Forall (fun a => compat a b) bs) (P : Permutation (checks b) ((pv, T p) :: cs)) (R : refutable p)
            (TC : forall j c l, nth_error (choices s) j = Some (c, l) -> tcheck CString c)
            (SI : strinv bs s).

    (** A choice that clashes with the pattern: its creator has matched. *)
    Lemma creator_matches st i c l (q : Prop) u : Forall (goodb st) bs -> st (id pv) = VString u -> nth_error (choices s) i = Some (c, l) ->
      passes c (VString u) <> None ->
      (forall a p0 cs0, In a bs -> Permutation (checks a) ((pv, T p0) :: cs0) -> refutable p0 -> same_kind c p0 ->
         exists k sibs, tclash k (T p0) (T p) sibs /\ (k = true -> has_binding_guard a = true -> existsb has_binding_guard l = true -> q)) ->
      q \/ first_match bs st <> None.
    Proof.
      intros GD SU N PA CL. destruct SI as (_ & _ & _ & _ & S5). destruct (S5 _ _ _ N) as (a & p0 & cs0 & IA & PP & SK & RP & BG).
      destruct (CL a p0 cs0 IA PP RP SK) as (k & sibs & TCL & HQ).
      rewrite Forall_forall in CO, OB, GD.
      assert (In (pv, T p) (checks b)) as IB by (apply (Permutation_in _ (Permutation_sym P)); now left).
      destruct (CO a IA pv (T p0) cs0 pv (T p) k sibs PP IB eq_refl TCL) as [AL|[-> GU]]; [|left; auto].
      right. apply (first_in a); [assumption|]. eapply alone_selected; [apply OB, IA|apply GD, IA|exact PP|exact AL|].
      rewrite SU. pose proof (TC _ _ _ N) as K.
      destruct (string_passes _ _ K PA) as [(w & -> & TW & ->)|(w & r & t & -> & TW & ->)]; destruct p0; try discriminate SK; cbn in SK; injection SK as <-.
      - cbn [CaseSem.tmatch]. destruct (list_eq_dec N.eq_dec _ _); congruence.
      - destruct (OB a IA) as (F & _). apply (Permutation_Forall PP) in F. inversion F as [|? ? [_ OT] _]; subst. cbn [fst snd] in OT.
        rewrite PT in OT. inversion OT as [| | | | | |? ? ? ? TD SR| | | | | |]; subst.
        cbn [CaseSem.tmatch]. rewrite firstn_app, firstn_all, Nat.sub_diag. cbn [firstn]. rewrite app_nil_r.
        destruct (list_eq_dec N.eq_dec (text_of w) (text_of w)); [|congruence].
        destruct SR as [->|[n ->]]; cbn; destruct prefix_name; discriminate.
    Qed.

    Lemma prefix_entry w i : In (w, i) (prefix_indices s) -> In w (map fst (prefix_indices s)).
    Proof. intros I. now apply (in_map fst) in I. Qed.

    (** The prefix that is chosen is the longest. *)
    Lemma chosen_ancestor v a i w r l bnd t u : tidy v -> get_ancestor v (prefix_indices s) = Some a ->
      chosen (choices s) (VString u) i (IsStringPrefix w r) l bnd -> u = text_of v ++ t -> starts_with w v = true -> w = a.
    Proof.
      intros TV GA (N & PA & FA) EU SW. destruct (ancestor_some _ _ _ GA) as (A1 & A2 & A3).
      destruct SI as (_ & S2 & _ & S4 & _).
      assert (In (w, i) (prefix_indices s)) as IW by (apply S2; eauto).
      apply in_map_iff in A2 as ([a' j] & E & IA). cbn in E. subst a'.
      pose proof (A3 w (prefix_entry _ _ IW) SW) as L.
      assert (starts_with w a = true) as SWA by (eapply starts_comparable; eassumption).
      destruct (S4 w i a j IW IA SWA) as [[-> _]|LT]; [reflexivity|]. exfalso.
      apply S2 in IA as (r' & l' & NA). specialize (FA j _ _ LT NA). revert FA.
      pose proof (TC _ _ _ NA) as KA. inversion KA as [| | |s0 r0 TA VR| | | |]; subst.
      apply (tidy_starts a v TA TV) in A1 as [q E]. rewrite E, <- app_assoc. now apply prefix_passes with (t := q ++ t).
    Qed.

    Definition covered (ov : list nat) (nn : bool) : Prop :=
      forall st, has_type (st (id pv)) (var_type pv) -> Forall (goodb st) bs -> tmatch (T p) (st (id pv)) <> None ->
       (exists i c l bnd, chosen (choices s) (st (id pv)) i c l bnd /\ In i ov) \/
       (unchosen (choices s) (st (id pv)) /\ nn = true) \/ first_match bs st <> None.
    Definition pushes (ov : list nat) : Prop :=
      NoDup ov /\ forall i, In i ov -> exists c l, nth_error (choices s) i = Some (c, l) /\ pushable c p /\ (bs = [] -> same_kind c p).

    Lemma nothing_yet i c l : bs = [] -> nth_error (choices s) i = Some (c, l) -> False.
    Proof. intros -> N. destruct SI as (_ & _ & _ & _ & S5). destruct (S5 _ _ _ N) as (a & _ & _ & [] & _). Qed.

    Lemma prefix_covered v name rest ov nn : p = AStringPrefix v name rest -> tidy v ->
      check_overlaps s (KStringPrefix v) = (ov, nn) -> covered ov nn /\ pushes ov.
    Proof.
      intros EPP TV CV. pose proof SI as (S1 & S2 & S3 & S4 & S5). split.
      - intros st HT GD TM. rewrite PT in HT. destruct (typed_string env _ HT) as [u EU]. rewrite EU in *.
        assert (exists t, u = text_of v ++ t) as [t ET].
        { rewrite EPP in TM. cbn [CaseSem.tmatch] in TM. destruct (list_eq_dec N.eq_dec (text_of v) (firstn (length (text_of v)) u)) as [E|]; [|congruence].
          exists (skipn (length (text_of v)) u). rewrite E at 1. now rewrite firstn_skipn. }
        destruct (choose_cases outside float_is finite (choices s) [] (VString u) st) as [(i & c & l & bnd & CH & _)|[UN _]].
        + pose proof CH as (N & PA & FA). pose proof (TC _ _ _ N) as K.
          destruct (string_passes c u K) as [(w & -> & TW & EW)|(w & r & t' & -> & TW & EW)]; [congruence| |].
          * (* a string that starts with the prefix *)
            right. right. destruct (creator_matches st i (IsString w) l False u GD EU N) as [[]|FM]; [congruence| |assumption].
            intros a p0 cs0 IA PP RP SK. exists false, []. split; [|discriminate]. rewrite EPP.
            destruct p0; try discriminate SK. cbn in SK. injection SK as <-. constructor. apply tidy_starts; auto. exists t. congruence.
          * destruct (tidy_comparable v w t t' TV TW) as [SW|[SV NE]]; [congruence| |].
            -- (* a prefix of the prefix *)
               assert (In (w, i) (prefix_indices s)) as IW by (apply S2; eauto).
               destruct (get_ancestor v (prefix_indices s)) as [a|] eqn:GA.
               ++ assert (w = a) by exact (chosen_ancestor v a i w r l bnd t u TV GA CH ET SW). subst a.
                  cbn in CV. rewrite GA in CV. injection CV as <- <-. left. exists i, (IsStringPrefix w r), l, bnd. split; [assumption|].
                  apply in_map_iff. exists (w, i). split; [reflexivity|]. apply filter_In. cbn [fst snd]. rewrite SW. split; [|reflexivity].
                  unfold overlap_candidates. rewrite GA. apply filter_In. split; [assumption|]. cbn. apply starts_refl.
               ++ exfalso. rewrite (ancestor_none _ _ GA w (prefix_entry _ _ IW)) in SW. discriminate.
            -- (* a longer prefix *)
               assert (In (w, i) (prefix_indices s)) as IW by (apply S2; eauto).
               assert (existsb has_binding_guard l = true -> In i ov) as HG.
               { intros EB. cbn in CV. destruct (get_ancestor v (prefix_indices s)) as [a|] eqn:GA; injection CV as <- <-;
                   apply in_map_iff; exists (w, i); (split; [reflexivity|]); apply filter_In; cbn [fst snd];
                   unfold choice_has_guard_using_pattern_bindings; rewrite N, EB, SV; (split; [|destruct (starts_with w v); reflexivity]).
                 - unfold overlap_candidates. rewrite GA. apply filter_In. split; [assumption|]. cbn.
                   apply (starts_trans a v w); [|assumption]. now destruct (ancestor_some _ _ _ GA).
                 - unfold descendant_candidates. apply filter_In. auto. }
               destruct (creator_matches st i (IsStringPrefix w r) l (In i ov) u GD EU N) as [IN|FM]; [congruence| | |].
               ++ intros a p0 cs0 IA PP RP SK. exists true, []. split; [|auto]. rewrite EPP.
                  destruct p0; try discriminate SK. cbn in SK. injection SK as <-. constructor; congruence.
               ++ left. exists i, (IsStringPrefix w r), l, bnd. auto.
               ++ auto.
        + destruct (get_ancestor v (prefix_indices s)) as [a|] eqn:GA.
          * exfalso. destruct (ancestor_some _ _ _ GA) as (A1 & A2 & A3). apply in_map_iff in A2 as ([a' j] & E & IA). cbn in E. subst a'.
            apply S2 in IA as (r' & l' & NA). pose proof (TC _ _ _ NA) as KA. inversion KA as [| | |s0 r0 TA VR| | | |]; subst.
            apply (tidy_starts a v TA TV) in A1 as [q E]. specialize (UN _ _ _ NA). revert UN. rewrite E, <- app_assoc. now apply prefix_passes with (t := q ++ t).
          * right. left. cbn in CV. rewrite GA in CV. injection CV as <- <-. auto.
      - cbn in CV. assert (exists f trie, (ov = map snd (filter f trie)) /\ (forall e, In e trie -> In e (prefix_indices s)) /\ NoDup (map snd trie) /\
          (forall e, In e trie -> f e = true -> starts_with (fst e) v = true \/ starts_with v (fst e) = true)) as (f & trie & -> & IN & ND & FS).
        { destruct (get_ancestor v (prefix_indices s)) as [a|] eqn:GA; injection CV as <- _.
          - unfold overlap_candidates. rewrite GA. eexists _, _. split; [reflexivity|]. split; [intros e I; now apply filter_In in I|].
            split; [now apply NoDup_filter_map|]. cbn. intros e _ F. destruct (starts_with (fst e) v); [now left|]. apply andb_true_iff in F. now right.
          - unfold descendant_candidates. eexists _, _. split; [reflexivity|]. split; [intros e I; now apply filter_In in I|].
            split; [now apply NoDup_filter_map|]. cbn. intros e _ F. apply andb_true_iff in F. now right. }
        split; [now apply NoDup_filter_map|].
        intros i I. apply in_map_iff in I as ([w j] & E & I). cbn in E. subst j. apply filter_In in I as [I F].
        pose proof (FS _ I F) as SW. apply IN, S2 in I as (r & l & N). exists (IsStringPrefix w r), l. split; [assumption|]. split; [rewrite EPP; exact SW|].
        intros EB. exfalso. eapply nothing_yet; eassumption.
    Qed.

    Lemma string_covered v ov nn : p = AString v -> tidy v ->
      check_overlaps s (KString v) = (ov, nn) -> covered ov nn /\ pushes ov.
    Proof.
      intros EPP TV CV. pose proof SI as (S1 & S2 & S3 & S4 & S5).
      cbn in CV. injection CV as EO EN.
      assert (forall i, In i ov -> exists c l, nth_error (choices s) i = Some (c, l) /\ passes c (VString (text_of v)) <> None /\
        (c = IsString v \/ exists w r, c = IsStringPrefix w r /\ starts_with w v = true)) as OV.
      { intros i I. rewrite <- EO in I. apply in_app_iff in I as [I|I].
        - destruct (get_index (KString v) (indices s)) as [i'|] eqn:GI; [|destruct I]. destruct I as [<-|[]].
          apply S1 in GI as [l N]. exists (IsString v), l. split; [assumption|]. split; [|now left]. cbn [CaseSpec.passes].
          destruct (list_eq_dec N.eq_dec (text_of v) (text_of v)); congruence.
        - apply in_map_iff in I as ([w j] & E & I). cbn in E. subst j. apply filter_In in I as [I SW]. cbn in SW.
          assert (In (w, i) (prefix_indices s)) as IP.
          { unfold overlap_candidates in I. destruct (get_ancestor v (prefix_indices s)); [|destruct I]. now apply filter_In in I. }
          apply S2 in IP as (r & l & N). exists (IsStringPrefix w r), l. split; [assumption|]. split; [|eauto].
          pose proof (TC _ _ _ N) as KA. inversion KA as [| | |s0 r0 TA VR| | | |]; subst. apply (tidy_starts w v TA TV) in SW as [q E].
          rewrite E. now apply prefix_passes with (t := q). }
      split.
      - intros st HT GD TM. rewrite PT in HT. destruct (typed_string env _ HT) as [u EU]. rewrite EU in *.
        assert (u = text_of v) as ->.
        { rewrite EPP in TM. cbn [CaseSem.tmatch] in TM. destruct (list_eq_dec N.eq_dec (text_of v) u); congruence. }
        destruct (choose_cases outside float_is finite (choices s) [] (VString (text_of v)) st) as [(i & c & l & bnd & CH & _)|[UN _]].
        + left. exists i, c, l, bnd. split; [assumption|]. pose proof CH as (N & PA & FA). pose proof (TC _ _ _ N) as K. rewrite <- EO. apply in_app_iff.
          destruct (string_passes c (text_of v) K) as [(w & -> & TW & EW)|(w & r & t' & -> & TW & EW)]; [congruence| |].
          * left. assert (v = w) by (apply tidy_inj; auto). subst w. assert (get_index (KString v) (indices s) = Some i) as -> by (apply S1; eauto). now left.
          * right. assert (starts_with w v = true) as SW by (apply tidy_starts; eauto).
            assert (In (w, i) (prefix_indices s)) as IW by (apply S2; eauto).
            apply in_map_iff. exists (w, i). split; [reflexivity|]. apply filter_In. split; [|assumption].
            unfold overlap_candidates. destruct (get_ancestor v (prefix_indices s)) as [a|] eqn:GA.
            -- apply filter_In. split; [assumption|]. cbn.
               assert (w = a) as ->; [|apply starts_refl]. eapply (chosen_ancestor v a i w r l bnd []); eauto. now rewrite app_nil_r.
            -- rewrite (ancestor_none _ _ GA w (prefix_entry _ _ IW)) in SW. discriminate.
        + right. left. split; [assumption|]. rewrite <- EN, EO. destruct ov as [|i ov]; [reflexivity|]. exfalso.
          destruct (OV i (or_introl eq_refl)) as (c & l & N & PA & _). apply PA. exact (UN _ _ _ N).
      - split.
        + rewrite <- EO. apply NoDup_app_intro.
          * destruct (get_index (KString v) (indices s)); cbn; repeat constructor. intros [].
          * apply NoDup_filter_map. unfold overlap_candidates. destruct (get_ancestor v (prefix_indices s)); [|constructor]. now apply NoDup_filter_map.
          * intros i I1 I2. destruct (get_index (KString v) (indices s)) as [i'|] eqn:GI; [|destruct I1]. destruct I1 as [<-|[]].
            apply S1 in GI as [l N]. apply in_map_iff in I2 as ([w j] & E & I). cbn in E. subst j. apply filter_In in I as [I _].
            assert (In (w, i') (prefix_indices s)) as IP.
            { unfold overlap_candidates in I. destruct (get_ancestor v (prefix_indices s)); [|destruct I]. now apply filter_In in I. }
            apply S2 in IP as (r & l' & N'). congruence.
        + intros i I. destruct (OV i I) as (c & l & N & _ & C). exists c, l. split; [assumption|]. split.
          * rewrite EPP. destruct C as [->|(w & r & -> & SW)]; [reflexivity|assumption].
          * intros EB. exfalso. eapply nothing_yet; eassumption.
    Qed.
  End Covered.

  Lemma string_step bs s b p cs x : var_type pv = CString ->
    Forall (okb G0 n0) bs -> okb G0 n0 b -> Forall (fun a => compat a b) bs -> Permutation (checks b) ((pv, T p) :: cs) -> refutable p ->
    static bs s (variable_id x) -> dynamic bs s -> strinv bs s ->
    exists s' x', padd_checked pv p (with_checks b cs) Infinite s x = Done (s', x') /\
      static (bs ++ [b]) s' (variable_id x') /\ dynamic (bs ++ [b]) s' /\ strinv (bs ++ [b]) s' /\ moves_to x x'.
  Proof.
    intros PT OB O CO P R ST DY SI.
    destruct (okb_pivot _ _ _ _ _ _ _ _ _ _ O P) as (VP & OP & LP & _).
    assert (forall j c l, nth_error (choices s) j = Some (c, l) -> tcheck CString c) as TC.
    { destruct ST as (_ & _ & _ & _ & G & _ & CK). intros j c l N. rewrite Forall_forall in CK.
      apply nth_error_In in N. apply CK in N. rewrite <- PT. apply N. }
    assert (exists k, to_runtime_check_kind p = Some k /\ exists ov nn, check_overlaps s k = (ov, nn) /\ covered bs s p ov nn /\ pushes bs s p ov /\
      match k with
      | KString v => True
      | KStringPrefix v => nn = true -> get_ancestor v (prefix_indices s) = None
      | _ => False
      end) as (k & KP & ov & nn & CV & COV & (ND & PU) & KK).
    { rewrite PT in OP. inversion OP as [| | |top z|top f|top v TD|top v name r TD SR| | |top ts ps F|top t|top t a r OA OR|]; subst; cbn in R; try contradiction.
      - exists (KString v). split; [reflexivity|]. destruct (check_overlaps s (KString v)) as [ov nn] eqn:CV. exists ov, nn. split; [reflexivity|].
        assert (covered bs s (AString v) ov nn /\ pushes bs s (AString v) ov) as [A B] by (eapply string_covered; eauto). auto.
      - exists (KStringPrefix v). split; [reflexivity|]. destruct (check_overlaps s (KStringPrefix v)) as [ov nn] eqn:CV. exists ov, nn. split; [reflexivity|].
        assert (covered bs s (AStringPrefix v name r) ov nn /\ pushes bs s (AStringPrefix v name r) ov) as [A B] by (eapply prefix_covered; eauto).
        split; [assumption|]. split; [assumption|]. intros ->. cbn in CV. destruct (get_ancestor v (prefix_indices s)); [discriminate|reflexivity]. }
    destruct (add_step env outside float_is finite float_value guards guards_perm pv G0 n0 bs s b p cs k Infinite x ov nn OB O P R KP ST DY CV ND PU)
      as (s' & x' & EQ & ST' & DY' & (cs' & extra & C1 & C2 & C3 & C4 & C5) & X1 & X2 & X3).
    - intros _. apply (new_check env outside float_is finite float_value guards guards_perm pv G0 n0); auto. now rewrite PT.
    - exact COV.
    - exists s', x'. split; [assumption|]. split; [assumption|]. split; [assumption|]. split; [|repeat split; assumption].
      assert (forall c c', renamed c c' -> tcheck CString c -> c' = c) as RS by (intros c c' RN K; inversion RN; subst; [reflexivity|inversion K]).
      assert (forall j c l, nth_error (choices s) j = Some (c, l) -> exists l', nth_error cs' j = Some (c, l') /\
        (existsb has_binding_guard l = true -> existsb has_binding_guard l' = true)) as FW.
      { intros j c l N. destruct (C4 _ _ _ N) as (c' & l' & N' & RN & HH). apply RS in RN; [|eauto]. subst c'. exists l'. split; [assumption|].
        destruct HH as [(_ & (b' & -> & _) & _)|(_ & _ & ->)]; [|auto]. rewrite existsb_app. intros ->. reflexivity. }
      assert (forall j c' l', nth_error cs' j = Some (c', l') -> exists l, nth_error (choices s) j = Some (c', l)) as BW.
      { intros j c' l' N. destruct (nth_error (choices s) j) as [[c l]|] eqn:E.
        - exists l. destruct (FW _ _ _ E) as (l2 & N2 & _). congruence.
        - apply nth_error_None in E. assert (j < length cs') by (apply nth_error_Some; congruence). lia. }
      assert (forall j c l, nth_error cs' j = Some (c, l) -> creator (bs ++ [b]) c l) as CR.
      { intros j c l N. destruct (BW _ _ _ N) as [l0 N0]. destruct (FW _ _ _ N0) as (l1 & N1 & HB). rewrite N in N1. injection N1 as <-.
        destruct SI as (_ & _ & _ & _ & S5). destruct (S5 _ _ _ N0) as (a & p0 & cs0 & IA & PP & SK & RP & BG).
        exists a, p0, cs0. split; [apply in_app_iff; now left|]. repeat split; auto. }
      destruct nn.
      + destruct C5 as (c & b' & -> & CK & GB & I1 & I2).
        assert (forall j c' l', nth_error (cs' ++ [(c, fallback s ++ [b'])]) j = Some (c', l') ->
          (j < length (choices s) /\ nth_error cs' j = Some (c', l')) \/ (j = length (choices s) /\ c' = c /\ l' = fallback s ++ [b'])) as AP.
        { intros j c' l' N. destruct (Nat.lt_ge_cases j (length cs')) as [L|L].
          - left. rewrite nth_error_app1 in N by assumption. split; [lia|assumption].
          - right. rewrite nth_error_app2 in N by assumption. destruct (j - length cs') as [|[|]] eqn:J; [|discriminate..].
            cbn in N. injection N as <- <-. split; [lia|auto]. }
        assert (forall c', (exists l', nth_error (cs' ++ [(c, fallback s ++ [b'])]) (length (choices s)) = Some (c', l')) <-> c' = c) as ATEND.
        { intros c'. rewrite nth_error_app2 by lia. rewrite C2, Nat.sub_diag. cbn. split; [now intros [l' [= -> _]]|intros ->; eauto]. }
        destruct SI as (S1 & S2 & S3 & S4 & S5).
        assert (forall w i, In (w, i) (prefix_indices s) -> i < length (choices s)) as PL.
        { intros w i I. apply S2 in I as (r & l & N). apply nth_error_Some. congruence. }
        assert (creator (bs ++ [b]) c (fallback s ++ [b'])) as CRN.
        { exists b, p, cs. split; [apply in_app_iff; right; now left|]. split; [assumption|]. split; [unfold same_kind; congruence|]. split; [assumption|].
          intros HB. rewrite existsb_app. cbn. unfold has_binding_guard in *. rewrite GB, HB. cbn. apply orb_true_r. }
        assert (forall i c' l', nth_error (choices s') i = Some (c', l') -> creator (bs ++ [b]) c' l') as S5'.
        { intros i c' l' N. rewrite C1 in N. destruct (AP _ _ _ N) as [[_ N']|(_ & -> & ->)]; eauto. }
        assert (forall c' i, i < length (choices s) -> (exists l, nth_error (choices s') i = Some (c', l)) <-> (exists l, nth_error (choices s) i = Some (c', l))) as SAME.
        { intros c' i L. rewrite C1, nth_error_app1 by lia. split; intros [l N]; [eauto|]. destruct (FW _ _ _ N) as (l' & N' & _). eauto. }
        assert (forall c' l' i, nth_error (choices s') i = Some (c', l') -> i < length (choices s) \/ (i = length (choices s) /\ c' = c)) as LAST.
        { intros c' l' i N. rewrite C1 in N. destruct (AP _ _ _ N) as [[L _]|(-> & -> & _)]; auto. }
        rewrite <- C1 in ATEND.
        destruct k; try contradiction.
        * (* a string *)
          cbn in I1, I2. assert (c = IsString s0) as -> by (destruct c; try discriminate CK; cbn in CK; congruence).
          split; [|split; [|split; [|split]]]; auto; rewrite ?I2; auto.
          -- intros w i. rewrite I1, get_index_cons. destruct (kind_eqb (KString w) (KString s0)) eqn:KE.
             ++ apply kind_eqb_iff in KE. injection KE as ->. split.
                ** intros [= <-]. now apply ATEND.
                ** intros [l N]. f_equal. destruct (LAST _ _ _ N) as [L|[-> _]]; [|reflexivity]. exfalso.
                   assert (exists l, nth_error (choices s) i = Some (IsString s0, l)) as N' by (apply SAME; eauto).
                   apply S1 in N'. cbn in CV. rewrite N' in CV. cbn in CV. discriminate.
             ++ rewrite S1. split.
                ** intros [l N]. apply SAME; eauto. apply nth_error_Some. congruence.
                ** intros [l N]. destruct (LAST _ _ _ N) as [L|[-> E]]; [apply SAME; eauto|]. exfalso. injection E as ->.
                   assert (kind_eqb (KString s0) (KString s0) = true) by now apply kind_eqb_iff. congruence.
          -- intros w i. rewrite S2. split; intros (r & l & N).
             ++ assert (exists l', nth_error (choices s') i = Some (IsStringPrefix w r, l')) as [l' N'] by (apply SAME; eauto; apply nth_error_Some; congruence). eauto.
             ++ destruct (LAST _ _ _ N) as [L|[_ E]]; [|discriminate].
                assert (exists l', nth_error (choices s) i = Some (IsStringPrefix w r, l')) as [l' N'] by (apply SAME; eauto). eauto.
        * (* a prefix *)
          cbn in I1, I2. assert (exists r, c = IsStringPrefix prefix r) as [r0 ->] by (destruct c; try discriminate CK; cbn in CK; injection CK as ->; eauto).
          specialize (KK eq_refl).
          split; [|split; [|split; [|split]]]; auto.
          -- intros w i. rewrite I1, S1. split; intros [l N].
             ++ apply SAME; eauto. apply nth_error_Some. congruence.
             ++ destruct (LAST _ _ _ N) as [L|[_ E]]; [|discriminate]. apply SAME; eauto.
          -- intros w i. rewrite I2, in_app_iff, S2. split.
             ++ intros [(r & l & N)|[[= -> <-]|[]]].
                ** assert (exists l', nth_error (choices s') i = Some (IsStringPrefix w r, l')) as [l' N'] by (apply SAME; eauto; apply nth_error_Some; congruence). eauto.
                ** exists r0. now apply ATEND.
             ++ intros (r & l & N). destruct (LAST _ _ _ N) as [L|[-> E]].
                ** left. assert (exists l', nth_error (choices s) i = Some (IsStringPrefix w r, l')) as [l' N'] by (apply SAME; eauto). eauto.
                ** right. injection E as -> ->. now left.
          -- rewrite I2, map_app. apply NoDup_app_intro; [assumption|repeat constructor; intros []|].
             intros i I [<-|[]]. apply in_map_iff in I as ([w j] & E & I). cbn in E. subst j. apply PL in I. lia.
          -- intros w i w' i'. rewrite I2, !in_app_iff. intros [I|[[= -> <-]|[]]] [J|[[= -> <-]|[]]] SW.
             ++ eauto.
             ++ exfalso. rewrite (ancestor_none _ _ KK w) in SW; [discriminate|]. now apply (in_map fst) in I.
             ++ right. eauto.
             ++ left. auto.
      + destruct C5 as (-> & I1 & I2). rewrite app_nil_r in C1. destruct SI as (S1 & S2 & S3 & S4 & S5).
        split; [|split; [|split; [|split]]]; rewrite ?I2; auto.
        * intros w i. rewrite I1, S1, C1. split; intros [l N]; [destruct (FW _ _ _ N) as (l' & N' & _)|destruct (BW _ _ _ N) as (l' & N')]; eauto.
        * intros w i. rewrite S2, C1. split; intros (r & l & N); [destruct (FW _ _ _ N) as (l' & N' & _)|destruct (BW _ _ _ N) as (l' & N')]; eauto.
        * intros i c l N. rewrite C1 in N. eauto.
  Qed.
End StringSplit.
