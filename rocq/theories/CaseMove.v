(** Moving the unconditional patterns of branches; patterns that can never match because of
    the variant that was inferred. *)
From Coq Require Import ZArith NArith Bool List Lia Permutation.
From Verif Require Import Text Strings StringsSpec Bits BitsSpec BitsProofs Case CaseSpec CaseText CasePure CaseSem CaseStatic.
Import ListNotations.
Local Open Scope nat_scope.

Lemma perm_cons_split {A} (l o : list A) x : Permutation l (x :: o) ->
  exists l1 l2, l = l1 ++ x :: l2 /\ Permutation (l1 ++ l2) o.
Proof.
  intros P. assert (In x l) as I by (apply (Permutation_in x (Permutation_sym P)); now left).
  apply in_split in I as (l1 & l2 & ->). exists l1, l2. split; [reflexivity|].
  apply Permutation_cons_inv with (a := x). eapply Permutation_trans; [|exact P]. apply Permutation_middle.
Qed.

Section Move.
  Context (env : environment)
          (outside : text -> Z)
          (float_is : text -> endianness -> list bool -> bool)
          (finite : endianness -> list bool -> bool)
          (float_value : text -> val)
          (guards : nat -> list (text * val) -> bool)
          (guards_perm : forall c l m, Permutation l m -> guards c l = guards c m).
  Notation hold := (holds outside float_is finite).
  Notation body_values := (body_values outside float_value).
  Notation tmatch := (tmatch outside float_is finite).
  Notation tmatches := (tmatches outside float_is finite).
  Notation checks_match := (checks_match outside float_is finite).
  Notation branch_match := (branch_match outside float_is finite float_value).
  Notation selected := (selected outside float_is finite float_value guards).
  Notation first_match := (first_match outside float_is finite float_value guards).
  Notation guarded := (guarded outside float_is finite).
  Notation alike := (alike outside float_is finite float_value).
  Notation has_type := (has_type env).
  Notation okt := (okt env outside float_is finite).
  Notation tgood := (tgood outside float_is finite).
  Notation okb := (okb env outside float_is finite).
  Notation goodb := (goodb env outside float_is finite).

  (** ** Trees that can never match *)
  Inductive bad : ctype -> tree -> Prop :=
    | bad_assign t n p : bad t p -> bad t (T (AAssign n p))
    | bad_here m n args j i u nm md ps : i <> j -> bad (CNamed m n args (Some j)) (T (AVariant i u nm md ps))
    | bad_tuple ts ps l t p : nth_error ts l = Some t -> nth_error ps l = Some p -> bad t p ->
        bad (CTuple ts) (T (ATuple ps))
    | bad_first t a r : bad t a -> bad (CList t) (T (ANonEmptyList a r))
    | bad_rest t a r : bad (CList t) r -> bad (CList t) (T (ANonEmptyList a r))
    | bad_variant m n args inferred ks k i u nm md ps l t p :
        mode_of env (CNamed m n args inferred) = Done (MNamed ks inferred) -> nth_error ks i = Some k ->
        nth_error (map snd (c_parameters k)) l = Some t -> nth_error ps l = Some p -> bad t p ->
        bad (CNamed m n args inferred) (T (AVariant i u nm md ps)).
  Definition badb (b : branch tree) : Prop := exists c, In c (checks b) /\ bad (var_type (fst c)) (snd c).

  Lemma tmatches_none ps : forall vs l p v, nth_error ps l = Some p -> nth_error vs l = Some v ->
    tmatch p v = None -> tmatches ps vs = None.
  Proof.
    induction ps as [|p' ps IH]; intros vs l p v A B E; [destruct l; discriminate|].
    destruct l as [|l], vs as [|v' vs]; try discriminate; cbn [CaseSem.tmatches nth_error] in *.
    - injection A as ->. injection B as ->. rewrite E. reflexivity.
    - rewrite (IH vs l p v A B E). destruct (tmatch p' v'); reflexivity.
  Qed.
  Lemma Forall2_nth {A B} (R : A -> B -> Prop) la lb : Forall2 R la lb -> forall l b, nth_error lb l = Some b ->
    exists a, nth_error la l = Some a /\ R a b.
  Proof.
    induction 1 as [|a b la lb H F IH]; intros [|l] b' E; try discriminate.
    - injection E as <-. now exists a.
    - cbn in *. eauto.
  Qed.
  Lemma bad_none ty t : bad ty t -> forall x, has_type x ty -> tmatch t x = None.
  Proof.
    induction 1 as [t n p B IH|m n args j i u nm md ps N|ts ps l t p A C B IH|t a r B IH|t a r B IH
                   |m n args inferred ks k i u nm md ps l t p M K A C B IH]; intros x H.
    - cbn [CaseSem.tmatch]. rewrite IH by assumption. reflexivity.
    - rewrite tmatch_variant. inversion H; subst; [|reflexivity].
      destruct (Nat.eq_dec i i0); [|reflexivity]. subst. exfalso. apply N. auto.
    - rewrite tmatch_tuple. destruct (typed_tuple env _ _ H) as (vs & -> & F).
      destruct (Forall2_nth _ _ _ F _ _ A) as (v & V & HV). eapply tmatches_none; eauto.
    - destruct (typed_list env _ _ H) as (vs & -> & F). cbn [CaseSem.tmatch]. destruct vs as [|v vs]; [reflexivity|].
      inversion F; subst. rewrite IH by assumption. reflexivity.
    - destruct (typed_list env _ _ H) as (vs & -> & F). cbn [CaseSem.tmatch]. destruct vs as [|v vs]; [reflexivity|].
      inversion F; subst. rewrite IH by (now constructor). destruct (tmatch a v); reflexivity.
    - rewrite tmatch_variant. edestruct (named_values env) as (j & k' & vs & -> & K' & F & _); [exact M|exact K|exact H|].
      destruct (Nat.eq_dec i j); [|reflexivity]. subst j. rewrite K' in K. injection K as ->.
      destruct (Forall2_nth _ _ _ F _ _ A) as (v & V & HV). eapply tmatches_none; eauto.
  Qed.
  Lemma badb_none b st : badb b -> goodb st b -> selected b st = None.
  Proof.
    intros ([v t] & I & B) G. apply in_split in I as (l1 & l2 & E). eapply not_selected.
    - rewrite E. apply Permutation_sym, Permutation_middle.
    - unfold CaseStatic.goodb in G. rewrite Forall_forall in G. cbn in B.
      apply (bad_none (var_type v)); [assumption|]. apply (G (v, t)). rewrite E. apply in_elt.
  Qed.
  Lemma moved_bad ty t u : moved t u -> bad ty u -> bad ty t.
  Proof.
    induction 1; intros B; auto.
    - constructor. auto.
    - inversion B.
    - inversion B.
  Qed.

  (** ** Moving the checks of a branch *)
  Inductive mv : list (cvar * tree) -> list (cvar * tree) -> Prop :=
    | mv_nil : mv [] []
    | mv_keep v p u cs cs' : moved p u -> (irref p = true -> irref u = true) -> mv cs cs' ->
        mv ((v, p) :: cs) ((v, u) :: cs')
    | mv_drop c cs cs' : mv cs cs' -> mv (c :: cs) cs'.
  Lemma mv_split cs cs' : mv cs cs' -> forall l1 v u l2, cs' = l1 ++ (v, u) :: l2 -> exists m1 p m2,
    cs = m1 ++ (v, p) :: m2 /\ moved p u /\ mv m1 l1 /\ mv m2 l2.
  Proof.
    induction 1 as [|w p u cs cs' M I V IH|c cs cs' V IH]; intros l1 v x l2 E.
    - destruct l1; discriminate.
    - destruct l1 as [|y l1].
      + injection E as -> -> ->. exists [], p, cs. repeat split; auto. constructor.
      + injection E as <- ->. destruct (IH l1 v x l2 eq_refl) as (m1 & p' & m2 & -> & A & B & C).
        exists ((w, p) :: m1), p', m2. repeat split; auto. now constructor.
    - subst. destruct (IH l1 v x l2 eq_refl) as (m1 & p' & m2 & -> & A & B & C).
      exists (c :: m1), p', m2. repeat split; auto. now constructor.
  Qed.
  Lemma mv_irref cs cs' : mv cs cs' -> Forall (fun c => irref (snd c) = true) cs ->
    Forall (fun c => irref (snd c) = true) cs'.
  Proof. induction 1; intros F; auto; inversion F; subst; [constructor|]; auto. Qed.
  Lemma mv_in cs cs' v u : mv cs cs' -> In (v, u) cs' -> exists p, In (v, p) cs /\ moved p u.
  Proof.
    intros M I. apply in_split in I as (l1 & l2 & E). destruct (mv_split _ _ M _ _ _ _ E) as (m1 & p & m2 & -> & A & _).
    exists p. split; [apply in_elt|assumption].
  Qed.
  Lemma mv_ids cs cs' : mv cs cs' -> NoDup (map (fun c => id (fst c)) cs) -> NoDup (map (fun c => id (fst c)) cs').
  Proof.
    intros M. induction M as [|v p u cs cs' A B M IH|c cs cs' M IH]; cbn; intros N; auto; inversion N; subst; auto.
    constructor; auto. intros I. apply H1. apply in_map_iff in I as ([w y] & E & I).
    destruct (mv_in _ _ _ _ M I) as (q & I' & _). apply in_map_iff. exists (w, q). auto.
  Qed.
  Lemma compat_mv b b' c c' : compat b c -> mv (checks b) (checks b') -> mv (checks c) (checks c') ->
    guard b' = guard b -> compat b' c'.
  Proof.
    intros K MB MC G v p others w q k sibs P I E C.
    apply perm_cons_split in P as (l1 & l2 & E1 & P).
    destruct (mv_split _ _ MB _ _ _ _ E1) as (m1 & p' & m2 & E2 & MP & V1 & V2).
    destruct (mv_in _ _ _ _ MC I) as (q' & I' & MQ).
    destruct (K v p' (m1 ++ m2) w q' k sibs) as [(A1 & A2 & A3)|[A1 A2]]; auto.
    - rewrite E2. apply Permutation_sym, Permutation_middle.
    - eapply moved_left; [exact MP|]. eapply moved_right; eassumption.
    - left. split; [now rewrite G|]. split; [|assumption].
      apply Forall_app in A2 as [A2 A4]. apply (Permutation_Forall P). apply Forall_app.
      split; eapply mv_irref; eassumption.
    - right. split; [assumption|]. unfold has_binding_guard in *. now rewrite G.
  Qed.

  Lemma pmove_checks_spec cs : Forall (fun c => okt true (var_type (fst c)) (snd c)) cs -> forall bo, exists cs' bo',
    pmove_checks cs bo = Done (cs', bo') /\ body_clause bo' = body_clause bo /\
    (forall n, Forall (fun c => id (fst c) < n) cs -> Forall (fun x => value_below n (snd x)) (body_bindings bo) ->
       Forall (fun x => value_below n (snd x)) (body_bindings bo')) /\
    csize cs' <= csize cs /\ mv cs cs' /\
    Forall (fun c => okt true (var_type (fst c)) (snd c) /\ refutable (un (snd c))) cs' /\
    (forall st, Forall (fun c => has_type (st (id (fst c))) (var_type (fst c)) /\ tgood (st (id (fst c))) (snd c)) cs ->
       Forall (fun c => has_type (st (id (fst c))) (var_type (fst c)) /\ tgood (st (id (fst c))) (snd c)) cs' /\
       peq (both (Some (body_values st bo)) (checks_match cs st))
           (both (Some (body_values st bo')) (checks_match cs' st))).
  Proof.
    induction 1 as [|[v t] cs O F IH]; intros bo.
    - exists [], bo. repeat split; auto. constructor. apply peq_refl.
    - cbn [fst snd] in O.
      destruct (pmove_spec env outside float_is finite float_value t v (var_type v) bo O)
        as (c & bo1 & E & C & B & S & K & M).
      destruct (IH bo1) as (cs' & bo' & E' & C' & B' & S' & V' & O' & M').
      exists (option_list c ++ cs'), bo'. cbn [pmove_checks]. rewrite E. cbn [bind]. rewrite E'. cbn [bind].
      split; [reflexivity|]. split; [congruence|]. split.
      { intros n L BB. inversion L; subst. apply B'; auto. }
      split; [rewrite csize_app; change (csize ((v, t) :: cs)) with (tsize t + csize cs); lia|].
      split.
      { destruct c as [[w u]|]; cbn; [|now constructor]. destruct (K w u eq_refl) as (-> & _ & _ & K4 & K5). now constructor. }
      split.
      { apply Forall_app. split; [|assumption]. destruct c as [[w u]|]; [|constructor].
        destruct (K w u eq_refl) as (-> & K2 & K3 & _). constructor; [split; assumption|constructor]. }
      intros st G. inversion G as [|? ? [G1 G2] G3]; subst. cbn [fst snd] in *.
      destruct (M st G1 G2) as [M1 M2]. destruct (M' st G3) as [M3 M4]. split.
      + apply Forall_app. split; [|assumption]. destruct c as [[w u]|]; [|constructor].
        constructor; [|constructor]. cbn. destruct (K w u eq_refl) as (-> & _). split; [assumption|]. eapply M1; reflexivity.
      + cbn [CaseSem.checks_match]. rewrite both_assoc, checks_match_app.
        eapply peq_trans; [apply peq_both; [exact M2|apply peq_refl]|].
        eapply peq_trans; [apply peq_both; [apply both_comm|apply peq_refl]|].
        rewrite <- both_assoc.
        eapply peq_trans; [apply peq_both; [apply peq_refl|exact M4]|].
        rewrite !both_assoc. apply peq_both; [apply both_comm|apply peq_refl].
  Qed.

  Definition movedb (b b' : branch tree) : Prop :=
    branch_id b' = branch_id b /\ guard b' = guard b /\ weight b' <= weight b /\ mv (checks b) (checks b') /\
    Forall (fun c => refutable (un (snd c))) (checks b').
  Lemma pmove_branch_spec G n b : okb G n b -> exists b', pmove_branch b = Done b' /\ okb G n b' /\ movedb b b' /\
    (forall st, goodb st b -> goodb st b' /\ alike b st b' st).
  Proof.
    intros (F & N & [B1 B2]).
    destruct (pmove_checks_spec (checks b)) with (bo := branch_body b) as (cs' & bo' & E & C & B & S & V & O & M).
    { eapply Forall_impl; [|exact F]. cbn. tauto. }
    exists (Branch (clause_index b) (alternative_index b) cs' (guard b) bo').
    unfold pmove_branch. rewrite E. cbn [bind]. split; [reflexivity|].
    assert (forall c, In c cs' -> exists d, In d (checks b) /\ fst c = fst d) as SUB.
    { intros [v u] I. destruct (mv_in _ _ _ _ V I) as (p & I' & _). now exists (v, p). }
    split; [|split].
    - split; [|split].
      + cbn. rewrite Forall_forall in *. intros c I. split; [|apply (O c I)].
        destruct (SUB c I) as (d & I' & ->). apply (F d I').
      + eapply mv_ids; eassumption.
      + split; [|now apply B]. cbn. rewrite Forall_forall in *. intros c I.
        destruct (SUB c I) as (d & I' & ->). apply (B1 d I').
    - split; [reflexivity|]. split; [reflexivity|]. split; [unfold weight; cbn [checks]; lia|]. split; [assumption|].
      cbn. eapply Forall_impl; [|exact O]. cbn. tauto.
    - intros st G'. destruct (M st G') as [M1 M2]. split; [exact M1|]. repeat split; [symmetry; exact C|exact M2].
  Qed.

  Definition inv (G : nat -> ctype) (n : nat) (bs : list (branch tree)) : Prop :=
    Forall (okb G n) bs /\ pairs compat bs /\ NoDup (map branch_id bs).
  Lemma pairs_mv bs bs' : Forall2 movedb bs bs' -> pairs compat bs -> pairs compat bs'.
  Proof.
    induction 1 as [|b b' bs bs' M F IH]; cbn; [auto|]. intros [A B]. split; [|auto]. clear IH B.
    induction F as [|c c' bs bs' M' F IH]; [constructor|]. inversion A; subst. constructor; [|auto].
    destruct M as (_ & G & _ & V & _), M' as (_ & _ & _ & V' & _). eapply compat_mv; eassumption.
  Qed.
  Lemma pmove_all_spec G n bs : inv G n bs -> exists bs', pmove_all bs = Done bs' /\ inv G n bs' /\
    Forall2 movedb bs bs' /\
    (forall st, Forall (goodb st) bs -> Forall (goodb st) bs' /\
       same_outcome (first_match bs st) (first_match bs' st)).
  Proof.
    intros (O & P & N).
    assert (exists bs', pmove_all bs = Done bs' /\ Forall (okb G n) bs' /\ Forall2 movedb bs bs' /\
      (forall st, Forall (goodb st) bs -> Forall (goodb st) bs' /\ Forall2 (fun b b' => alike b st b' st) bs bs'))
      as (bs' & E & O' & V & M).
    { clear P N. induction O as [|b bs OB O IH].
      - exists []. repeat split; constructor.
      - destruct IH as (bs' & E & O' & V & M). destruct (pmove_branch_spec _ _ _ OB) as (b' & EB & OB' & VB & MB).
        exists (b' :: bs'). cbn. rewrite EB. cbn. rewrite E. cbn. repeat split; try (constructor; assumption).
        + inversion H; subst. constructor; [now apply MB|now apply M].
        + inversion H; subst. constructor; [now apply MB|now apply M]. }
    exists bs'. split; [assumption|]. split; [|split; [assumption|]].
    - split; [assumption|]. split; [now apply (pairs_mv bs)|].
      replace (map branch_id bs') with (map branch_id bs); [assumption|]. clear - V.
      induction V as [|b b' bs bs' (I & _) V IH]; cbn; congruence.
    - intros st G'. destruct (M st G') as [M1 M2]. split; [assumption|]. now apply first_match_alike.
  Qed.
  Lemma movedb_badb b b' : movedb b b' -> badb b' -> badb b.
  Proof.
    intros (_ & _ & _ & V & _) ([v u] & I & B). destruct (mv_in _ _ _ _ V I) as (p & I' & M).
    exists (v, p). split; [assumption|]. cbn in *. eapply moved_bad; eassumption.
  Qed.
  Lemma movedb_weights bs bs' : Forall2 movedb bs bs' -> weights bs' <= weights bs.
  Proof.
    induction 1 as [|b b' bs bs' (_ & _ & W & _) F IH]; [apply Nat.le_refl|].
    change (weight b' + weights bs' <= weight b + weights bs). lia.
  Qed.
End Move.
