(** One step of splitting the branches, for checks that have a kind. *)
From Coq Require Import ZArith NArith Bool List Lia Permutation.
From Verif Require Import Text Strings StringsSpec Bits BitsSpec BitsProofs Case CaseSpec CaseText CasePure CaseSem CaseStatic CaseMove CaseResidual CaseDeriv CaseNice.
Import ListNotations.
Local Open Scope nat_scope.

(** Checks that only differ in the names of a variant. *)
Inductive renamed : check -> check -> Prop :=
  | renamed_same c : renamed c c
  | renamed_variant mt mt' i ls vs : renamed (IsVariant mt i ls vs) (IsVariant mt' i ls vs).
Lemma renamed_kind c c' : renamed c c' -> check_kind c' = check_kind c.
Proof. now destruct 1. Qed.
Lemma renamed_vars c c' : renamed c c' -> check_vars c' = check_vars c.
Proof. now destruct 1. Qed.
Lemma renamed_pushable c c' p : renamed c c' -> pushable c p -> pushable c' p.
Proof. now destruct 1. Qed.
Lemma renamed_new c c' v p : renamed c c' -> pnew_checks v p c' = pnew_checks v p c.
Proof. destruct 1; [reflexivity|]. destruct p; reflexivity. Qed.
Lemma renamed_tcheck env ty c c' : renamed c c' -> tcheck env ty c -> tcheck env ty c'.
Proof. destruct 1; [auto|]. intros H. inversion H; subst. econstructor; first [eassumption|reflexivity]. Qed.
Lemma renamed_residual env o f fi pv c c' p new : renamed c c' ->
  residual env o f fi pv c p new -> residual env o f fi pv c' p new.
Proof.
  intros R (A & B & C & D). split; [assumption|]. split; [assumption|]. split; [eapply renamed_pushable; eassumption|].
  now rewrite (renamed_new _ _ _ _ R).
Qed.
Lemma renamed_passes o f fi c c' x : renamed c c' -> passes o f fi c' x = passes o f fi c x.
Proof. now destruct 1. Qed.

(** ** Which list of branches is taken *)
Section Choose.
  Context (outside : text -> Z)
          (float_is : text -> endianness -> list bool -> bool)
          (finite : endianness -> list bool -> bool).
  Notation passes := (passes outside float_is finite).

  Fixpoint choose (cs : list (check * list (branch tree))) (fb : list (branch tree)) (x : val) (st : store) :
      list (branch tree) * store :=
    match cs with
    | [] => (fb, st)
    | (c, l) :: cs => match passes c x with Some bnd => (l, bind_all bnd st) | None => choose cs fb x st end
    end.
  (** The choice at [i] is the first that passes. *)
  Definition chosen (cs : list (check * list (branch tree))) (x : val) (i : nat) c l bnd : Prop :=
    nth_error cs i = Some (c, l) /\ passes c x = Some bnd /\
    forall j c' l', j < i -> nth_error cs j = Some (c', l') -> passes c' x = None.
  Definition unchosen (cs : list (check * list (branch tree))) (x : val) : Prop :=
    forall j c l, nth_error cs j = Some (c, l) -> passes c x = None.
  Lemma choose_cases cs fb x st :
    (exists i c l bnd, chosen cs x i c l bnd /\ choose cs fb x st = (l, bind_all bnd st)) \/
    (unchosen cs x /\ choose cs fb x st = (fb, st)).
  Proof.
    induction cs as [|[c l] cs IH]; cbn [choose].
    - right. split; [|reflexivity]. intros [|j]; discriminate.
    - destruct (passes c x) as [bnd|] eqn:E.
      + left. exists 0, c, l, bnd. split; [|reflexivity]. split; [reflexivity|]. split; [assumption|]. intros j ? ? L. lia.
      + destruct IH as [(i & c' & l' & bnd & (N & P & F) & ->)|[U ->]].
        * left. exists (S i), c', l', bnd. split; [|reflexivity]. split; [assumption|]. split; [assumption|].
          intros [|j] c0 l0 L H; [injection H as <- <-; assumption|]. apply (F j c0 l0); [lia|exact H].
        * right. split; [|reflexivity]. intros [|j] c0 l0 H; [injection H as <- <-; assumption|]. exact (U j c0 l0 H).
  Qed.
  Lemma chosen_choose cs fb x st i c l bnd : chosen cs x i c l bnd -> choose cs fb x st = (l, bind_all bnd st).
  Proof.
    revert i. induction cs as [|[c0 l0] cs IH]; intros i (N & P & F); [destruct i; discriminate|]. cbn [choose].
    destruct i as [|i].
    - injection N as -> ->. now rewrite P.
    - rewrite (F 0 c0 l0) by (try lia; reflexivity). apply (IH i). split; [assumption|]. split; [assumption|].
      intros j c' l' L H. apply (F (S j) c' l'); [lia|exact H].
  Qed.
  Lemma unchosen_choose cs fb x st : unchosen cs x -> choose cs fb x st = (fb, st).
  Proof.
    induction cs as [|[c0 l0] cs IH]; intros U; [reflexivity|]. cbn [choose].
    rewrite (U 0 c0 l0 eq_refl). apply IH. intros j c l H. exact (U (S j) c l H).
  Qed.
  Lemma chosen_unique cs x i c l bnd j c' l' bnd' : chosen cs x i c l bnd -> chosen cs x j c' l' bnd' -> i = j.
  Proof.
    intros (N & P & F) (N' & P' & F'). destruct (Nat.lt_trichotomy i j) as [L|[E|L]]; [|assumption|].
    - rewrite (F' i c l L N) in P. discriminate.
    - rewrite (F j c' l' L N') in P'. discriminate.
  Qed.
  Lemma unchosen_app a b x : unchosen (a ++ b) x <-> unchosen a x /\ unchosen b x.
  Proof.
    unfold unchosen. split.
    - intros H. split; intros j c l N.
      + apply (H j c l). rewrite nth_error_app1; [assumption|]. apply nth_error_Some. congruence.
      + apply (H (length a + j) c l). rewrite nth_error_app2 by lia. now replace (length a + j - length a) with j by lia.
    - intros [A B] j c l N. destruct (Nat.lt_ge_cases j (length a)).
      + rewrite nth_error_app1 in N by assumption. eauto.
      + rewrite nth_error_app2 in N by assumption. eauto.
  Qed.
  Lemma chosen_app a b x i c l bnd : chosen a x i c l bnd -> chosen (a ++ b) x i c l bnd.
  Proof.
    intros (N & P & F). assert (i < length a) by (apply nth_error_Some; congruence).
    split; [now rewrite nth_error_app1|]. split; [assumption|]. intros j c' l' L H'. apply (F j c' l' L).
    rewrite nth_error_app1 in H' by lia. assumption.
  Qed.
End Choose.

(** ** Pushing a branch to some of the choices *)
Lemma push_nth {P} i (b : branch P) : forall cs j, nth_error (push_choice i b cs) j =
  match nth_error cs j with
  | Some (c, l) => Some (c, if Nat.eqb i j then l ++ [b] else l)
  | None => None
  end.
Proof.
  induction i as [|i IH]; intros [|[c l] cs] [|j]; cbn; try reflexivity.
  - destruct (nth_error cs j) as [[c' l']|]; reflexivity.
  - apply IH.
Qed.
Lemma push_length {P} i (b : branch P) : forall cs, length (push_choice i b cs) = length cs.
Proof. induction i as [|i IH]; intros [|[c l] cs]; cbn; auto. Qed.
Lemma update_nth {P} (f : check -> check) i : forall (cs : list (check * list (branch P))) j, nth_error (update_choice f i cs) j =
  match nth_error cs j with
  | Some (c, l) => Some (if Nat.eqb i j then f c else c, l)
  | None => None
  end.
Proof.
  induction i as [|i IH]; intros [|[c l] cs] [|j]; cbn; try reflexivity.
  - destruct (nth_error cs j) as [[c' l']|]; reflexivity.
  - apply IH.
Qed.
Lemma update_length {P} f i : forall (cs : list (check * list (branch P))), length (update_choice f i cs) = length cs.
Proof. induction i as [|i IH]; intros [|[c l] cs]; cbn; auto. Qed.
Lemma updates_nth {P} (f : check -> check) ov : forall (cs : list (check * list (branch P))) j, NoDup ov ->
  nth_error (fold_left (fun cs i => update_choice f i cs) ov cs) j =
  match nth_error cs j with
  | Some (c, l) => Some (if in_dec Nat.eq_dec j ov then f c else c, l)
  | None => None
  end.
Proof.
  induction ov as [|i ov IH]; intros cs j N; cbn [fold_left].
  - destruct (nth_error cs j) as [[c l]|]; reflexivity.
  - inversion N; subst. rewrite IH by assumption. rewrite update_nth. destruct (nth_error cs j) as [[c l]|]; [|reflexivity].
    destruct (in_dec Nat.eq_dec j ov) as [I|I], (in_dec Nat.eq_dec j (i :: ov)) as [I'|I'], (Nat.eqb_spec i j); cbn in *; subst; try tauto; try reflexivity.
Qed.
Lemma updates_length {P} f ov : forall (cs : list (check * list (branch P))),
  length (fold_left (fun cs i => update_choice f i cs) ov cs) = length cs.
Proof. induction ov as [|i ov IH]; intros cs; cbn [fold_left]; [reflexivity|]. now rewrite IH, update_length. Qed.

Lemma padd_to_choices_spec v p br ov : NoDup ov -> forall cs,
  (forall i, In i ov -> exists c l new, nth_error cs i = Some (c, l) /\ pnew_checks v p c = Done new) ->
  exists cs', padd_to_choices v p br ov cs = Done cs' /\ length cs' = length cs /\
    forall j c l, nth_error cs j = Some (c, l) ->
      (In j ov /\ exists new, pnew_checks v p c = Done new /\ nth_error cs' j = Some (c, l ++ [add_checks br new])) \/
      (~ In j ov /\ nth_error cs' j = Some (c, l)).
Proof.
  induction 1 as [|i ov NI N IH]; intros cs H.
  - exists cs. cbn. repeat split; auto.
  - destruct (H i (or_introl eq_refl)) as (c & l & new & E & NEW). cbn [padd_to_choices]. rewrite E, NEW. cbn [bind].
    destruct (IH (push_choice i (add_checks br new) cs)) as (cs' & E' & L' & S').
    { intros k I. destruct (H k (or_intror I)) as (c' & l' & new' & K1 & K2). rewrite push_nth, K1. eauto 6. }
    exists cs'. split; [assumption|]. split; [rewrite L'; apply push_length|].
    intros j c' l' NJ. specialize (S' j). rewrite push_nth, NJ in S'. destruct (Nat.eqb_spec i j) as [<-|NE].
    + left. split; [now left|]. rewrite E in NJ. injection NJ as <- <-. exists new. split; [assumption|].
      destruct (S' _ _ eq_refl) as [[I _]|[_ S'']]; [tauto|assumption].
    + destruct (S' _ _ eq_refl) as [[I (nw & A & B)]|[I S'']].
      * left. split; [now right|]. eauto.
      * right. split; [|assumption]. intros [|]; [congruence|tauto].
Qed.
Lemma update_app {P} f i : forall (a b : list (check * list (branch P))), i < length a ->
  update_choice f i (a ++ b) = update_choice f i a ++ b.
Proof. induction i as [|i IH]; intros [|[c l] a] b L; cbn in *; try lia; [reflexivity|]. now rewrite IH by lia. Qed.
Lemma updates_app {P} f ov : forall (a b : list (check * list (branch P))), (forall i, In i ov -> i < length a) ->
  fold_left (fun cs i => update_choice f i cs) ov (a ++ b) = fold_left (fun cs i => update_choice f i cs) ov a ++ b.
Proof.
  induction ov as [|i ov IH]; intros a b L; cbn [fold_left]; [reflexivity|].
  rewrite update_app by (apply L; now left). apply IH. intros j I. rewrite update_length. apply L. now right.
Qed.
Lemma name_variant_renamed a b m c : renamed c (name_variant a b m c).
Proof. destruct c; constructor. Qed.

Section Step.
  Context (env : environment)
          (outside : text -> Z)
          (float_is : text -> endianness -> list bool -> bool)
          (finite : endianness -> list bool -> bool)
          (float_value : text -> val)
          (guards : nat -> list (text * val) -> bool)
          (guards_perm : forall c l m, Permutation l m -> guards c l = guards c m).
  Notation passes := (passes outside float_is finite).
  Notation tmatch := (tmatch outside float_is finite).
  Notation checks_match := (checks_match outside float_is finite).
  Notation selected := (selected outside float_is finite float_value guards).
  Notation first_match := (first_match outside float_is finite float_value guards).
  Notation alike := (alike outside float_is finite float_value).
  Notation has_type := (has_type env).
  Notation okt := (okt env outside float_is finite).
  Notation tgood := (tgood outside float_is finite).
  Notation okb := (okb env outside float_is finite).
  Notation goodb := (goodb env outside float_is finite).
  Notation tcheck := (tcheck env).
  Notation badb := (badb env).
  Notation choose := (choose outside float_is finite).
  Notation chosen := (chosen outside float_is finite).
  Notation unchosen := (unchosen outside float_is finite).
  Context (pv : cvar) (G0 : nat -> ctype) (n0 : nat).
  Notation residual := (residual env outside float_is finite pv).
  Notation keep := (fun b b' : branch tree => keeps pv b /\ b' = b).

  Definition choice_ok (G : nat -> ctype) (n : nat) (bs : list (branch tree)) (ch : check * list (branch tree)) : Prop :=
    tcheck (var_type pv) (fst ch) /\ fresh_vars (fst ch) /\
    (forall v, In v (check_vars (fst ch)) -> n0 <= id v < n /\ var_type v = G (id v)) /\
    sub (deriv pv (residual (fst ch))) bs (snd ch).
  Definition light (bs l : list (branch tree)) : Prop := (bs = [] /\ l = []) \/ weights l < weights bs.
  Definition context_ok (bs : list (branch tree)) (x x' : context) : Prop :=
    variable_id x <= variable_id x' /\ missing x' = missing x /\
    (forall i, In i (reachable x) -> In i (reachable x') \/ exists b, In b bs /\ branch_id b = i /\ badb b).
  Definition static (bs : list (branch tree)) (s : splitter tree) (n : nat) : Prop :=
    n0 <= n /\ sub keep bs (fallback s) /\ light bs (fallback s) /\
    Forall (fun ch => light bs (snd ch)) (choices s) /\
    exists G, (forall i, i < n0 -> G i = G0 i) /\ Forall (choice_ok G n bs) (choices s).
  Definition dynamic (bs : list (branch tree)) (s : splitter tree) : Prop :=
    forall st l st', has_type (st (id pv)) (var_type pv) -> Forall (goodb st) bs ->
      choose (choices s) (fallback s) (st (id pv)) st = (l, st') ->
      (forall i, i < n0 -> st i = st' i) /\ Forall (goodb st') l /\
      same_outcome (first_match bs st) (first_match l st').

  (** *** A branch without a check on the pivot *)
  Lemma light_snoc bs l b b' : light bs l -> weight b' <= weight b -> bs <> [] -> light (bs ++ [b]) (l ++ [b']).
  Proof.
    intros [[-> _]|H] W N; [congruence|]. right. rewrite !weights_app.
    change (weights [b']) with (weight b' + 0). change (weights [b]) with (weight b + 0). lia.
  Qed.
  Lemma light_skip bs l b : light bs l -> light (bs ++ [b]) l.
  Proof.
    intros H. right. rewrite weights_app. change (weights [b]) with (weight b + 0).
    destruct H as [[-> ->]|H]; [cbn; unfold weight; lia|]. unfold weight. lia.
  Qed.
  Lemma light_first b b' : weight b' < weight b -> light [b] [b'].
  Proof. intros H. right. change (weight b' + 0 < weight b + 0). lia. Qed.

  Lemma choice_ok_mono G n G' n' bs ch : choice_ok G n bs ch -> (forall i, i < n -> G' i = G i) -> n <= n' ->
    choice_ok G' n' bs ch.
  Proof.
    intros (A & B & C & D) E L. repeat split; auto; destruct (C v H) as [[C1 C2] C3]; try lia. rewrite C3. symmetry. apply E. lia.
  Qed.
  Lemma choice_ok_skip G n bs ch b : choice_ok G n bs ch -> choice_ok G n (bs ++ [b]) ch.
  Proof. intros (A & B & C & D). repeat split; auto; try (now apply C). now apply sub_skip. Qed.

  Lemma first_snoc bs b l b' st st' : same_outcome (first_match bs st) (first_match l st') -> alike b st b' st' ->
    same_outcome (first_match (bs ++ [b]) st) (first_match (l ++ [b']) st').
  Proof.
    intros S A. rewrite !first_match_app. 
    pose proof (first_match_alike _ _ _ _ _ guards_perm [b] st [b'] st' ltac:(constructor; [exact A|constructor])) as S1.
    destruct (first_match bs st) as [[[i x] m]|], (first_match l st') as [[[j y] m']|]; cbn [same_outcome] in S; try tauto; first [exact S|exact S1].
  Qed.
  Lemma first_skip bs b l st st' : same_outcome (first_match bs st) (first_match l st') ->
    selected b st = None \/ first_match bs st <> None ->
    same_outcome (first_match (bs ++ [b]) st) (first_match l st').
  Proof.
    intros S H. rewrite first_match_app. destruct (first_match bs st) as [[[i x] m]|] eqn:E; [exact S|].
    destruct H as [H|H]; [|congruence]. cbn [CaseSem.first_match]. now rewrite H.
  Qed.

  Lemma add_fallback_step bs s b n : okb G0 n0 b -> keeps pv b -> bs <> [] -> static bs s n -> dynamic bs s ->
    static (bs ++ [b]) (add_fallback_branch b s) n /\ dynamic (bs ++ [b]) (add_fallback_branch b s).
  Proof.
    intros O K NE (LN & SF & LF & LC & G & EG & CO) D. split.
    - split; [assumption|]. unfold add_fallback_branch. cbn [fallback choices]. split; [apply sub_take; auto|].
      split; [apply light_snoc; auto|]. split.
      + apply Forall_map. eapply Forall_impl; [|exact LC]. cbn. intros a L. apply light_snoc; auto.
      + exists G. split; [assumption|]. apply Forall_map. eapply Forall_impl; [|exact CO].
        intros [c l] (A & B & C & E). repeat split; cbn [fst snd] in *; auto; try (now apply C).
        apply sub_take; [assumption|]. now left.
    - intros st l st' H GD E. apply Forall_app in GD as [GD GB]. inversion GB as [|? ? GB1 _]; subst. clear GB.
      unfold add_fallback_branch in E. cbn [choices fallback] in E.
      assert (exists l0, choose (choices s) (fallback s) (st (id pv)) st = (l0, st') /\ l = l0 ++ [b]) as (l0 & E0 & ->).
      { clear - E. induction (choices s) as [|[c m] cs IH]; cbn [map CaseSplit.choose] in *.
        - injection E as <- <-. eauto.
        - cbn [fst snd] in E. destruct (passes c (st (id pv))) as [bnd|]; [|auto]. injection E as <- <-. eauto. }
      destruct (D st l0 st' H GD E0) as (D1 & D2 & D3). split; [assumption|]. split.
      + apply Forall_app. split; [assumption|]. constructor; [|constructor]. eapply goodb_ext; eassumption.
      + apply first_snoc; [assumption|]. destruct O as (_ & _ & BL). eapply alike_ext; eassumption.
  Qed.

  (** *** A branch that can never match *)
  Lemma drop_step bs s b n : static bs s n -> dynamic bs s ->
    (forall st, goodb st b -> selected b st = None) ->
    static (bs ++ [b]) s n /\ dynamic (bs ++ [b]) s.
  Proof.
    intros (LN & SF & LF & LC & G & EG & CO) D NS. split.
    - split; [assumption|]. split; [now apply sub_skip|]. split; [now apply light_skip|]. split.
      + eapply Forall_impl; [|exact LC]. intros a. apply light_skip.
      + exists G. split; [assumption|]. eapply Forall_impl; [|exact CO]. intros a. apply choice_ok_skip.
    - intros st l st' H GD E. apply Forall_app in GD as [GD GB]. inversion GB as [|? ? GB1 _]; subst.
      destruct (D st l st' H GD E) as (D1 & D2 & D3). split; [assumption|]. split; [assumption|].
      apply first_skip; [assumption|]. left. auto.
  Qed.

  (** *** A branch with a check on the pivot *)
  Definition new_check_ok (p : pattern tree) (k : kind) (m : branch_mode) (x : context) : Prop :=
    exists c x', fresh_runtime_check k m x = Done (c, x') /\ tcheck (var_type pv) c /\ fresh_vars c /\
      pushable c p /\ same_kind c p /\
      (forall v, In v (check_vars c) -> variable_id x <= id v < variable_id x') /\
      variable_id x <= variable_id x' /\ missing x' = missing x /\ reachable x' = reachable x.

  (** The choices after the step: what happened to each, and the new one. *)
  Definition stepped (b : branch tree) (p : pattern tree) (ov : list nat) (nn : bool) (k : kind)
      (s s' : splitter tree) : Prop :=
    exists cs' extra, choices s' = cs' ++ extra /\ length cs' = length (choices s) /\ fallback s' = fallback s /\
      (forall j c l, nth_error (choices s) j = Some (c, l) -> exists c' l', nth_error cs' j = Some (c', l') /\ renamed c c' /\
         ((In j ov /\ (exists b', l' = l ++ [b'] /\ guard b' = guard b) /\
           (forall i u n md ps, p = AVariant i u n md ps -> is_ignored c' = false)) \/
          (~ In j ov /\ c' = c /\ l' = l))) /\
      (if nn then exists c b', extra = [(c, fallback s ++ [b'])] /\ check_kind c = Some k /\ guard b' = guard b /\
         indices s' = indices (save_index_of_new_choice k s) /\
         prefix_indices s' = prefix_indices (save_index_of_new_choice k s)
       else extra = [] /\ indices s' = indices s /\ prefix_indices s' = prefix_indices s).

  Lemma same_kind_passes c p x : tcheck (var_type pv) c -> okt true (var_type pv) (T p) -> refutable p -> same_kind c p ->
    has_type x (var_type pv) -> tmatch (T p) x <> None -> passes c x <> None.
  Proof.
    intros K O R S H M. revert K O H. generalize (var_type pv). intros ty K O H. unfold same_kind in S.
    destruct K as [z|z|s T|s r T E|ts vs E|t|t f r E1 E2|m n args inferred ks i k mt ls vs Mo N E];
      destruct p; try (destruct R; fail); cbn in S; try discriminate.
    - injection S as <-. destruct (typed_int env _ H) as [y ->]. cbn in *. destruct (Z.eq_dec z y); congruence.
    - injection S as <-. destruct (typed_float env _ H) as [y ->]. cbn in *. destruct (N.eq_dec z y); congruence.
    - injection S as <-. destruct (typed_string env _ H) as [y ->]. cbn [CaseSpec.passes CaseSem.tmatch] in *.
      destruct (list_eq_dec _ _ _); congruence.
    - injection S as <-. destruct (typed_string env _ H) as [y ->]. cbn [CaseSpec.passes CaseSem.tmatch] in *.
      destruct (list_eq_dec _ _ _); congruence.
    - destruct (typed_tuple env _ _ H) as (xs & -> & F). cbn. discriminate.
    - destruct (typed_list env _ _ H) as (xs & -> & F). destruct xs; cbn in *; congruence.
    - destruct (typed_list env _ _ H) as (xs & -> & F). destruct xs; cbn in *; congruence.
    - injection S as <-. rewrite tmatch_variant in M. destruct x; try congruence. cbn. destruct (Nat.eq_dec i index); congruence.
  Qed.


  Lemma push_ok b p cs c new : okb G0 n0 b -> Permutation (checks b) ((pv, T p) :: cs) ->
    tcheck (var_type pv) c -> fresh_vars c -> (forall v, In v (check_vars c) -> n0 <= id v) -> residual c (T p) new ->
    weight (with_checks b (cs ++ new)) <= weight b /\ (same_kind c p -> weight (with_checks b (cs ++ new)) < weight b) /\ forall st bnd, goodb st b -> passes c (st (id pv)) = Some bnd ->
      (forall i, i < n0 -> st i = bind_all bnd st i) /\   goodb (bind_all bnd st) (with_checks b (cs ++ new)) /\ alike b st (with_checks b (cs ++ new)) (bind_all bnd st).
  Proof.
    intros O P K FV B (OP & R & PU & E). cbn [un] in *.
    destruct (okb_pivot _ _ _ _ _ _ _ _ _ _ O P) as (VP & _ & LP & F1 & F2 & F3 & NDC).
    destruct (new_spec env outside float_is finite _ pv p c OP R K PU eq_refl) as (new' & E' & GN).
    rewrite E in E'. injection E' as <-. destruct GN as (A1 & A2 & A3 & A4 & A5 & A6 & A7).
    assert (weight (with_checks b (cs ++ new)) = S (csize cs + csize new)) as W1 by (unfold weight; cbn [checks with_checks]; now rewrite csize_app).
    assert (weight b = S (tsize (T p) + csize cs)) as W2 by (unfold weight; now rewrite (csize_perm _ _ P)).
    split; [lia|]. split; [intros S; specialize (A4 S); lia|].
    intros st bnd GB PA. unfold CaseStatic.goodb in GB. pose proof (Permutation_Forall P GB) as GB'.
    inversion GB' as [|? ? [HT _] GC]; subst. cbn [fst snd] in HT.
    assert (forall i, i < n0 -> st i = bind_all bnd st i) as EX.
    { intros i L. destruct (passes_typed _ _ _ _ _ _ _ _ K HT PA) as (vals & -> & _).
      symmetry. apply (bound_below _ _ _ _ n0); assumption. }
    assert (~ In (id pv) (map id (check_vars c))) as NI.
    { intros I. apply in_map_iff in I as (v & EV & I). specialize (B v I). lia. }
    destruct (A7 st bnd HT PA FV NI) as [G1 G2].
    split; [assumption|]. split.
    - unfold CaseStatic.goodb. cbn [checks with_checks]. apply Forall_app. split; [|assumption].
      rewrite Forall_forall in *. intros q I. specialize (GC q I). specialize (F2 q I). cbn in *. now rewrite <- EX.
    - eapply alike_replace; [exact P|reflexivity| |exact EX|assumption]. apply O.
  Qed.

  Lemma add_step bs s b p cs k m x ov nn :
    Forall (okb G0 n0) bs ->
    okb G0 n0 b -> Permutation (checks b) ((pv, T p) :: cs) -> refutable p -> to_runtime_check_kind p = Some k ->
    static bs s (variable_id x) -> dynamic bs s -> check_overlaps s k = (ov, nn) -> NoDup ov ->
    (forall i, In i ov -> exists c l, nth_error (choices s) i = Some (c, l) /\ pushable c p /\ (bs = [] -> same_kind c p)) ->
    (nn = true -> new_check_ok p k m x) ->
    (forall st, has_type (st (id pv)) (var_type pv) -> Forall (goodb st) bs -> tmatch (T p) (st (id pv)) <> None ->
       (exists i c l bnd, chosen (choices s) (st (id pv)) i c l bnd /\ In i ov) \/
       (unchosen (choices s) (st (id pv)) /\ nn = true) \/ first_match bs st <> None) ->
    exists s' x', padd_checked pv p (with_checks b cs) m s x = Done (s', x') /\
      static (bs ++ [b]) s' (variable_id x') /\ dynamic (bs ++ [b]) s' /\ stepped b p ov nn k s s' /\
      variable_id x <= variable_id x' /\ missing x' = missing x /\ reachable x' = reachable x.
  Proof.
    intros OB O P R KP (LN & SF & LF & LC & G & EG & CO) D CV ND OV NEW COV.
    destruct (okb_pivot _ _ _ _ _ _ _ _ _ _ O P) as (VP & OP & LP & F1 & F2 & F3 & NDC).
    assert (forall ts, p <> ABitArray ts) as NB by (intros ts ->; discriminate).
    (* every push gives a residual *)
    assert (forall c, tcheck (var_type pv) c -> pushable c p -> exists new, pnew_checks pv p c = Done new /\ residual c (T p) new) as RES.
    { intros c K PU. destruct (new_spec env outside float_is finite _ pv p c OP R K PU eq_refl) as (new & E & _).
      exists new. split; [assumption|]. split; [assumption|]. auto. }
    assert (forall j c l, nth_error (choices s) j = Some (c, l) -> choice_ok G (variable_id x) bs (c, l)) as CO'.
    { rewrite Forall_forall in CO. intros j c l N. apply CO. eapply nth_error_In; eassumption. }
    destruct (padd_to_choices_spec pv p (with_checks b cs) ov ND (choices s)) as (cs1 & EP & LE & SP).
    { intros i I. destruct (OV i I) as (c & l & N & PU & _). destruct (RES c) as (new & E & _); auto.
      - apply (CO' i c l N).
      - eauto 8. }
    assert (forall i, In i ov -> i < length cs1) as OVL.
    { intros i I. destruct (OV i I) as (c & l & N & _). rewrite LE. apply nth_error_Some. congruence. }
    (* the new choice *)
    assert (exists extra x', (if nn then exists c new, fresh_runtime_check k m x = Done (c, x') /\ pnew_checks pv p c = Done new /\
                residual c (T p) new /\ tcheck (var_type pv) c /\ fresh_vars c /\ same_kind c p /\ check_kind c = Some k /\
                (forall v, In v (check_vars c) -> variable_id x <= id v < variable_id x') /\
                extra = [(c, fallback s ++ [add_checks (with_checks b cs) new])]
              else x' = x /\ extra = []) /\
              variable_id x <= variable_id x' /\ missing x' = missing x /\ reachable x' = reachable x) as (extra & x' & EX & X1 & X2 & X3).
    { destruct nn.
      - destruct (NEW eq_refl) as (c & x' & E1 & K & FV & PU & SK & B & L & M1 & M2).
        destruct (RES c K PU) as (new & E2 & RR). exists [(c, fallback s ++ [add_checks (with_checks b cs) new])], x'.
        split; [|auto]. exists c, new. pose proof SK as SK'. unfold same_kind in SK'. rewrite KP in SK'. auto 12.
      - exists [], x. auto. }
    set (upd := match p with
                | AVariant _ u n md _ => fold_left (fun cs i => update_choice (name_variant u n md) i cs) ov
                | _ => fun cs : list (check * list (branch tree)) => cs
                end).
    assert (forall cs0 extra0, length cs0 = length cs1 -> upd (cs0 ++ extra0) = upd cs0 ++ extra0) as UA.
    { intros cs0 e0 L0. subst upd. destruct p; try reflexivity. apply updates_app. rewrite L0. exact OVL. }
    assert (length (upd cs1) = length (choices s)) as UL.
    { subst upd. destruct p; try assumption. now rewrite updates_length. }
    set (si := if nn then save_index_of_new_choice k s else s).
    assert (padd_checked pv p (with_checks b cs) m s x =
            Done (Splitter (upd cs1 ++ extra) (fallback s) (indices si) (prefix_indices si), x')) as EQ.
    { rewrite <- UA by reflexivity.
      assert (padd_checked pv p (with_checks b cs) m s x =
        let* '(s, x) :=
            if nn then
              let s := save_index_of_new_choice k (with_choices s cs1) in
              let* '(c, x) := fresh_runtime_check k m x in
              let* new := pnew_checks pv p c in
              Done (with_choices s (choices s ++ [(c, fallback s ++ [add_checks (with_checks b cs) new])]), x)
            else Done (with_choices s cs1, x) in
          Done (name_variants p ov s, x)) as ->.
      { unfold padd_checked. destruct p; try (destruct R; fail); try (exfalso; eapply NB; reflexivity);
          rewrite KP, CV, EP; reflexivity. }
      assert (forall s0 : splitter tree, name_variants p ov s0 = with_choices s0 (upd (choices s0))) as NV.
      { intros s0. subst upd. destruct p, s0; reflexivity. }
      subst si. destruct nn.
      - destruct EX as (c & new & E1 & E2 & _ & _ & _ & _ & _ & _ & ->). rewrite E1. cbn [bind]. rewrite E2. cbn [bind].
        rewrite NV. destruct k; unfold with_choices, save_index_of_new_choice; cbn [choices fallback indices prefix_indices]; rewrite ?LE; reflexivity.
      - destruct EX as [-> ->]. cbn [bind]. rewrite NV, app_nil_r. reflexivity. }
    (* what each old choice has become *)
    assert (forall j c l, nth_error (choices s) j = Some (c, l) -> exists c' l', nth_error (upd cs1) j = Some (c', l') /\ renamed c c' /\
         ((In j ov /\ (exists new, l' = l ++ [with_checks b (cs ++ new)] /\ residual c (T p) new) /\
           (forall i u n md ps, p = AVariant i u n md ps -> is_ignored c' = false)) \/
          (~ In j ov /\ c' = c /\ l' = l))) as OLD.
    { intros j c l N. destruct (SP j c l N) as [(I & new & E & N1)|(I & N1)].
      - destruct (OV j I) as (c0 & l0 & N0 & PU & _). rewrite N in N0. injection N0 as <- <-.
        assert (residual c (T p) new) as RR by (split; [assumption|]; auto).
        assert (exists c', nth_error (upd cs1) j = Some (c', l ++ [add_checks (with_checks b cs) new]) /\ renamed c c' /\
          (forall i u n md ps, p = AVariant i u n md ps -> is_ignored c' = false)) as (c' & U & RN & IG).
        { subst upd. destruct p; try (exists c; split; [exact N1|split; [constructor|discriminate]]).
          rewrite updates_nth, N1 by assumption. destruct (in_dec Nat.eq_dec j ov); [|tauto].
          eexists. split; [reflexivity|]. split; [apply name_variant_renamed|].
          intros ? ? ? ? ? _. clear - PU. unfold pushable in PU. destruct c; cbn; try reflexivity; try contradiction; discriminate. }
        exists c', (l ++ [add_checks (with_checks b cs) new]). split; [assumption|]. split; [assumption|]. left. split; [assumption|]. split; [|assumption].
        exists new. split; [reflexivity|assumption].
      - exists c, l. split; [|split; [constructor|right; auto]].
        subst upd. destruct p; try exact N1. rewrite updates_nth, N1 by assumption. destruct (in_dec Nat.eq_dec j ov); [tauto|reflexivity]. }
    assert (forall j c' l', nth_error (upd cs1) j = Some (c', l') -> exists c l, nth_error (choices s) j = Some (c, l)) as BACK.
    { intros j c' l' N. destruct (nth_error (choices s) j) as [[c l]|] eqn:E; [eauto|]. apply nth_error_None in E.
      assert (j < length (upd cs1)) by (apply nth_error_Some; congruence). lia. }
    exists (Splitter (upd cs1 ++ extra) (fallback s) (indices si) (prefix_indices si)), x'.
    split; [exact EQ|]. split; [|split; [|split]]; auto.
    - (* static *)
      split; [lia|]. cbn [choices fallback]. split; [now apply sub_skip|]. split; [now apply light_skip|]. split.
      + apply Forall_app. split.
        * apply Forall_forall. intros [c' l'] I. apply In_nth_error in I as [j N]. destruct (BACK _ _ _ N) as (c & l & N0).
          destruct (OLD _ _ _ N0) as (c0 & l0 & N1 & RN & H). rewrite N in N1. injection N1 as <- <-. cbn [snd].
          rewrite Forall_forall in LC. pose proof (LC (c, l) (nth_error_In _ _ N0)) as L0. cbn [snd] in L0.
          destruct (CO' _ _ _ N0) as (K & FV & B & _). cbn [fst] in *.
          destruct H as [(I & (new & -> & RR) & _)|(I & -> & ->)]; [|now apply light_skip].
          destruct (push_ok b p cs c new O P K FV ltac:(intros v IV; apply (B v IV)) RR) as (W1 & W2 & _).
          destruct bs as [|b0 bs]; [|apply light_snoc; auto; discriminate].
          destruct L0 as [[_ ->]|L0]; [|cbn in L0; lia]. apply light_first, W2.
          destruct (OV j I) as (c0 & l0 & N2 & _ & SK). rewrite N0 in N2. injection N2 as <- <-. auto.
        * destruct nn; [|destruct EX as [_ ->]; constructor].
          destruct EX as (c & new & E1 & E2 & RR & K & FV & SK & CK & B & ->). constructor; [|constructor]. cbn [snd].
          destruct (push_ok b p cs c new O P K FV ltac:(intros v IV; specialize (B v IV); lia) RR) as (W1 & W2 & _).
          specialize (W2 SK). change (add_checks (with_checks b cs) new) with (with_checks b (cs ++ new)).
          destruct LF as [[E1' E2']|LF].
          -- rewrite E2', E1'. now apply light_first.
          -- right. rewrite !weights_app. change (weights [b]) with (weight b + 0).
             change (weights [with_checks b (cs ++ new)]) with (weight (with_checks b (cs ++ new)) + 0). lia.
      + assert (exists G', (forall i, i < variable_id x -> G' i = G i) /\ Forall (fun ch => forall v, In v (check_vars (fst ch)) -> var_type v = G' (id v)) extra) as (G' & EG' & VE).
        { destruct nn; [|destruct EX as [_ ->]; exists G; split; [auto|constructor]].
          destruct EX as (c & new & E1 & E2 & RR & K & FV & SK & CK & B & ->).
          exists (fun i => match find (fun v => Nat.eqb (id v) i) (check_vars c) with Some v => var_type v | None => G i end). split.
          - intros i L. destruct (find _ _) as [v|] eqn:E; [|reflexivity]. apply find_some in E as [I E]. apply Nat.eqb_eq in E. specialize (B v I). lia.
          - constructor; [|constructor]. cbn [fst]. intros v I. destruct (find _ _) as [w|] eqn:E.
            + apply find_some in E as [I' E]. apply Nat.eqb_eq in E. f_equal.
              clear - FV I I' E. unfold fresh_vars in FV. induction (check_vars c) as [|u l IH]; [destruct I|]. inversion FV; subst.
              destruct I as [->|I], I' as [->|I']; auto.
              * exfalso. apply H1. rewrite <- E. now apply in_map.
              * exfalso. apply H1. rewrite E. now apply in_map.
            + exfalso. apply (find_none _ _ E) in I. rewrite Nat.eqb_refl in I. discriminate. }
        exists G'. split; [intros i L; rewrite EG' by lia; auto|]. apply Forall_app. split.
        * apply Forall_forall. intros [c' l'] I. apply In_nth_error in I as [j N]. destruct (BACK _ _ _ N) as (c & l & N0).
          destruct (OLD _ _ _ N0) as (c0 & l0 & N1 & RN & H). rewrite N in N1. injection N1 as <- <-.
          pose proof (CO' _ _ _ N0) as C1. apply (choice_ok_mono _ _ G' (variable_id x')) in C1; [|assumption|lia].
          destruct C1 as (K & FV & B & SB). cbn [fst snd] in *.
          split; [eapply renamed_tcheck; eassumption|]. cbn [fst snd]. split; [unfold fresh_vars in *; now rewrite (renamed_vars _ _ RN)|].
          split; [rewrite (renamed_vars _ _ RN); assumption|].
          apply (sub_mono (deriv pv (residual c))); [intros a d [KK|(p0 & cs0 & nw & Q1 & Q2 & Q3)]; [now left|right; exists p0, cs0, nw; split; [assumption|split; [assumption|eapply renamed_residual; eassumption]]]|].
          destruct H as [(I & (new & -> & RR) & _)|(I & -> & ->)]; [|now apply sub_skip].
          apply sub_take; [assumption|]. right. exists (T p), cs, new. auto.
        * destruct nn; [|destruct EX as [_ ->]; constructor].
          destruct EX as (c & new & E1 & E2 & RR & K & FV & SK & CK & B & ->). constructor; [|constructor].
          inversion VE as [|? ? VE1 _]; subst. cbn [fst] in VE1.
          split; [assumption|]. cbn [fst snd]. split; [assumption|]. split; [intros v I; split; [specialize (B v I); lia|auto]|].
          apply sub_take; [|right; exists (T p), cs, new; auto].
          apply (sub_mono keep); [|assumption]. intros a d KK. now left.
    - (* dynamic *)
      intros st l st' H GD E. cbn [choices fallback] in E. apply Forall_app in GD as [GD GB]. inversion GB as [|? ? GB1 _]; subst. clear GB.
      assert (selected b st = None \/ tmatch (T p) (st (id pv)) <> None) as SEL.
      { destruct (tmatch (T p) (st (id pv))) eqn:TM; [right; congruence|left]. eapply not_selected; eassumption. }
      destruct (choose_cases outside float_is finite (choices s) (fallback s) (st (id pv)) st) as [(i & c & l0 & bnd & CH & E0)|[U E0]].
      + destruct (D st _ _ H GD E0) as (D1 & D2 & D3). destruct CH as (N0 & PA & FA).
        destruct (OLD _ _ _ N0) as (c' & l' & N1 & RN & HH).
        assert (chosen (upd cs1 ++ extra) (st (id pv)) i c' l' bnd) as CH'.
        { apply chosen_app. split; [assumption|]. split; [rewrite (renamed_passes _ _ _ _ _ _ RN); assumption|].
          intros j c1 l1 L N2. destruct (BACK _ _ _ N2) as (c2 & l2 & N3). destruct (OLD _ _ _ N3) as (c3 & l3 & N4 & RN' & _).
          rewrite N2 in N4. injection N4 as <- <-. rewrite (renamed_passes _ _ _ _ _ _ RN'). exact (FA j c2 l2 L N3). }
        rewrite (chosen_choose _ _ _ _ _ _ _ _ _ _ _ CH') in E. injection E as <- <-. split; [assumption|].
        destruct (CO' _ _ _ N0) as (K & FV & B & _). cbn [fst] in *.
        destruct HH as [(I & (new & -> & RR) & _)|(I & -> & ->)].
        * destruct (push_ok b p cs c new O P K FV ltac:(intros v IV; apply (B v IV)) RR) as (_ & _ & PO).
          destruct (PO st bnd GB1 PA) as (_ & P2 & P3). split.
          -- apply Forall_app. split; [assumption|]. constructor; [assumption|constructor].
          -- now apply first_snoc.
        * split; [assumption|]. apply first_skip; [assumption|]. destruct SEL as [SEL|SEL]; [now left|right].
          destruct (COV st H GD SEL) as [(j & cj & lj & bj & CJ & IJ)|[[U _]|Q]]; [exfalso|exfalso|assumption].
          -- apply I. replace i with j; [assumption|]. eapply chosen_unique; [exact CJ|]. split; [exact N0|]. split; eassumption.
          -- rewrite (U i c l0 N0) in PA. discriminate.
      + destruct (D st _ _ H GD E0) as (D1 & D2 & D3).
        assert (unchosen (upd cs1) (st (id pv))) as U'.
        { intros j c' l' N. destruct (BACK _ _ _ N) as (c2 & l2 & N3). destruct (OLD _ _ _ N3) as (c3 & l3 & N4 & RN' & _).
          rewrite N in N4. injection N4 as <- <-. rewrite (renamed_passes _ _ _ _ _ _ RN'). exact (U j c2 l2 N3). }
        destruct nn.
        * destruct EX as (c & new & E1 & E2 & RR & K & FV & SK & CK & B & ->).
          destruct (passes c (st (id pv))) as [bnd|] eqn:PA.
          -- assert (choose (upd cs1 ++ [(c, fallback s ++ [add_checks (with_checks b cs) new])]) (fallback s) (st (id pv)) st
                     = (fallback s ++ [add_checks (with_checks b cs) new], bind_all bnd st)) as CE.
             { clear - U' PA. induction (upd cs1) as [|[c0 l0] u IH]; cbn [app CaseSplit.choose].
               - now rewrite PA.
               - rewrite (U' 0 c0 l0 eq_refl). apply IH. intros j c' l' N. exact (U' (S j) c' l' N). }
             rewrite CE in E. injection E as <- <-.
             destruct (push_ok b p cs c new O P K FV ltac:(intros v IV; specialize (B v IV); lia) RR) as (_ & _ & PO).
             destruct (PO st bnd GB1 PA) as (P1 & P2 & P3). split; [assumption|].
             assert (Forall (okb G0 n0) (fallback s)) as OF.
             { apply Forall_forall. intros f IF. destruct (sub_in _ _ _ _ SF IF) as (a & IA & _ & ->). rewrite Forall_forall in OB. auto. }
             split.
             ++ apply Forall_app. split; [|constructor; [assumption|constructor]].
                rewrite Forall_forall in *. intros f IF. eapply goodb_ext; [apply OF, IF|exact P1|apply D2, IF].
             ++ apply first_snoc; [|assumption]. eapply same_trans; [exact D3|].
                eapply first_match_ext; [assumption| |exact P1]. eapply Forall_impl; [|exact OF]. intros a OA. apply OA.
          -- assert (unchosen (upd cs1 ++ [(c, fallback s ++ [add_checks (with_checks b cs) new])]) (st (id pv))) as U2.
             { apply unchosen_app. split; [assumption|]. intros [|[|j]] c0 l0 N; cbn in N; try discriminate. now injection N as <- <-. }
             rewrite (unchosen_choose _ _ _ _ _ _ _ U2) in E. injection E as <- <-. split; [auto|]. split; [assumption|].
             apply first_skip; [assumption|]. left. destruct SEL as [SEL|SEL]; [assumption|]. exfalso.
             exact (same_kind_passes c p _ K OP R SK H SEL PA).
        * destruct EX as [_ ->]. rewrite app_nil_r, (unchosen_choose _ _ _ _ _ _ _ U') in E. injection E as <- <-.
          split; [auto|]. split; [assumption|]. apply first_skip; [assumption|]. destruct SEL as [SEL|SEL]; [now left|right].
          destruct (COV st H GD SEL) as [(j & cj & lj & bj & (N & PA & _) & IJ)|[[_ Q]|Q]]; [exfalso|discriminate|assumption].
          rewrite (U j cj lj N) in PA. discriminate.
    - (* stepped *)
      exists (upd cs1), extra. cbn [choices fallback indices prefix_indices]. split; [reflexivity|]. split; [assumption|]. split; [reflexivity|]. split.
      + intros j c l N. destruct (OLD _ _ _ N) as (c' & l' & N1 & RN & H). exists c', l'. split; [assumption|]. split; [assumption|].
        destruct H as [(I & (new & -> & RR) & IG)|H]; [left|now right]. split; [assumption|]. split; [|assumption]. eexists. split; [reflexivity|]. reflexivity.
      + subst si. destruct nn.
        * destruct EX as (c & new & E1 & E2 & RR & K & FV & SK & CK & B & ->). exists c, (add_checks (with_checks b cs) new). auto.
        * destruct EX as [_ ->]. auto.
  Qed.
End Step.
