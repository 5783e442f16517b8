(** What the branches satisfy all through the compilation, and moving unconditional
    patterns. *)
From Coq Require Import ZArith NArith Bool List Lia Permutation.
From Verif Require Import Text Strings StringsSpec Bits BitsSpec BitsProofs Case CaseSpec CaseText CasePure CaseSem.
Import ListNotations.
Local Open Scope nat_scope.

Section CtypeInd.
  Context (Q : ctype -> Prop).
  Definition subtypes (t : ctype) : list ctype :=
    match t with CList t => [t] | CTuple ts | CNamed _ _ ts _ => ts | _ => [] end.
  Context (step : forall t, Forall Q (subtypes t) -> Q t).
  Fixpoint ctype_ind' (t : ctype) : Q t.
  Proof.
    apply step. destruct t; cbn; try (constructor; fail); try (repeat constructor; apply ctype_ind').
    - induction elements; constructor; [apply ctype_ind'|assumption].
    - induction arguments; constructor; [apply ctype_ind'|assumption].
  Defined.
End CtypeInd.

Lemma specialised_argument params : forall args i, specialised_type (combine params args) i = argument params args i.
Proof.
  induction params as [|p params IH]; intros [|a args] i; cbn; try reflexivity.
  rewrite (N.eqb_sym p i). destruct (i =? p)%N; auto.
Qed.
Lemma specialise_instantiate params args t : specialise_type (combine params args) t = instantiate params args t.
Proof.
  induction t as [t IH] using ctype_ind'. destruct t; cbn in *; try reflexivity.
  - now rewrite specialised_argument.
  - inversion IH; subst. now f_equal.
  - f_equal. now apply map_ext_Forall.
  - f_equal. now apply map_ext_Forall.
Qed.
Lemma specialise_fields params args k :
  map snd (c_parameters (specialise_constructor (combine params args) k)) = field_types params args k.
Proof.
  unfold specialise_constructor, field_types. cbn. rewrite map_map. apply map_ext. intros [l t]. cbn.
  apply specialise_instantiate.
Qed.

(** ** Trees *)
Fixpoint irref (t : tree) : bool :=
  match t with
  | T ADiscard | T (AVariable _) | T (AStringPrefixSlice _ _ _) => true
  | T (AAssign _ q) => irref q
  | T (ATuple ps) => forallb irref ps
  | _ => false
  end.
Fixpoint tsize (t : tree) : nat :=
  match t with
  | T (AStringPrefix s _ _) => S (S (length s))
  | T (ABitArray ts) => S (length ts)
  | T (AAssign _ q) => S (tsize q)
  | T (ATuple ps) | T (AVariant _ _ _ _ ps) => S (list_sum (map tsize ps))
  | T (ANonEmptyList a r) => S (tsize a + tsize r)
  | _ => 1
  end.
Lemma tsize_pos t : 1 <= tsize t.
Proof. destruct t as [[]]; cbn; lia. Qed.
Definition csize (cs : list (cvar * tree)) : nat := list_sum (map (fun c => tsize (snd c)) cs).
Definition weight (b : branch tree) : nat := S (csize (checks b)).
Definition weights (bs : list (branch tree)) : nat := list_sum (map weight bs).
Lemma csize_app a b : csize (a ++ b) = csize a + csize b.
Proof. unfold csize. now rewrite map_app, list_sum_app. Qed.
Lemma weights_app a b : weights (a ++ b) = weights a + weights b.
Proof. unfold weights. now rewrite map_app, list_sum_app. Qed.
Lemma list_sum_perm a b : Permutation a b -> list_sum a = list_sum b.
Proof. induction 1; simpl; lia. Qed.
Lemma csize_perm a b : Permutation a b -> csize a = csize b.
Proof. intros P. unfold csize. now apply list_sum_perm, Permutation_map. Qed.

(** A string or a prefix in the first tree where the second has a shorter prefix; [true] for
    a prefix; the trees beside the way there. *)
Inductive tclash : bool -> tree -> tree -> list tree -> Prop :=
  | tc_string s p name r : starts_with p s = true -> tclash false (T (AString s)) (T (AStringPrefix p name r)) []
  | tc_prefix s n1 r1 p n2 r2 : starts_with p s = true -> p <> s ->
      tclash true (T (AStringPrefix s n1 r1)) (T (AStringPrefix p n2 r2)) []
  | tc_left k n p q sibs : tclash k p q sibs -> tclash k (T (AAssign n p)) q sibs
  | tc_right k n p q sibs : tclash k p q sibs -> tclash k p (T (AAssign n q)) sibs
  | tc_tuple k ps1 p ps2 qs1 q qs2 sibs : length ps1 = length qs1 -> tclash k p q sibs ->
      tclash k (T (ATuple (ps1 ++ p :: ps2))) (T (ATuple (qs1 ++ q :: qs2))) (ps1 ++ ps2 ++ sibs)
  | tc_variant k i u n m u' n' m' ps1 p ps2 qs1 q qs2 sibs : length ps1 = length qs1 -> tclash k p q sibs ->
      tclash k (T (AVariant i u n m (ps1 ++ p :: ps2))) (T (AVariant i u' n' m' (qs1 ++ q :: qs2))) (ps1 ++ ps2 ++ sibs)
  | tc_first k p r q s sibs : tclash k p q sibs -> tclash k (T (ANonEmptyList p r)) (T (ANonEmptyList q s)) (r :: sibs)
  | tc_rest k p r q s sibs : tclash k r s sibs -> tclash k (T (ANonEmptyList p r)) (T (ANonEmptyList q s)) (p :: sibs).

Definition alone (b : branch tree) (others : list (cvar * tree)) (sibs : list tree) : Prop :=
  guard b = None /\ Forall (fun c => irref (snd c) = true) others /\ Forall (fun t => irref t = true) sibs.
Definition compat (b b' : branch tree) : Prop :=
  forall v p others w q k sibs, Permutation (checks b) ((v, p) :: others) -> In (w, q) (checks b') ->
    id w = id v -> tclash k p q sibs -> alone b others sibs \/ (k = true /\ has_binding_guard b = true).

(** [pairs R l]: [R] holds from every element to every later one. *)
Fixpoint pairs {A} (R : A -> A -> Prop) (l : list A) : Prop :=
  match l with [] => True | a :: l => Forall (R a) l /\ pairs R l end.
Lemma pairs_app {A} (R : A -> A -> Prop) l m :
  pairs R (l ++ m) <-> pairs R l /\ pairs R m /\ Forall (fun a => Forall (R a) m) l.
Proof.
  induction l as [|a l IH]; cbn; [intuition|]. rewrite IH, Forall_app. split.
  - intros [[A1 A2] [B [C D]]]. repeat split; auto.
  - intros [[A1 A2] [B D]]. inversion D; subst. tauto.
Qed.

Section Static.
  Context (env : environment)
          (outside : text -> Z)
          (float_is : text -> endianness -> list bool -> bool)
          (finite : endianness -> list bool -> bool)
          (float_value : text -> val)
          (guards : nat -> list (text * val) -> bool)
          (guards_perm : forall c l m, Permutation l m -> guards c l = guards c m).
  Notation hold := (holds outside float_is finite).
  Notation passes := (passes outside float_is finite).
  Notation bound_value_of := (bound_value_of outside float_value).
  Notation body_values := (body_values outside float_value).
  Notation tmatch := (tmatch outside float_is finite).
  Notation tmatches := (tmatches outside float_is finite).
  Notation checks_match := (checks_match outside float_is finite).
  Notation branch_match := (branch_match outside float_is finite float_value).
  Notation selected := (selected outside float_is finite float_value guards).
  Notation first_match := (first_match outside float_is finite float_value guards).
  Notation guarded := (guarded outside float_is finite).
  Notation alike := (alike outside float_is finite float_value).
  Notation has_type := (has_type env).

  Definition good_test (t : test) : Prop :=
    wf_test t /\ (forall b, sizes_nonneg outside b t) /\ plain_test t /\
    (forall v r, t = Match v r -> is_impossible_segment v = false).
  Definition simple_rest (t : tree) : Prop := t = T ADiscard \/ exists n, t = T (AVariable n).

  (** Well typed trees.  [top]: the tree is that of a check, and may have lost some tests. *)
  Inductive okt : bool -> ctype -> tree -> Prop :=
    | ok_discard top t : okt top t (T ADiscard)
    | ok_variable top t n : okt top t (T (AVariable n))
    | ok_assign top t n p : okt top t p -> okt top t (T (AAssign n p))
    | ok_int top z : okt top CInt (T (AInt z))
    | ok_float top f : okt top CFloat (T (AFloat f))
    | ok_string top s : tidy s -> okt top CString (T (AString s))
    | ok_prefix top s name r : tidy s -> simple_rest r -> okt top CString (T (AStringPrefix s name r))
    | ok_slice s a b : okt true CString (T (AStringPrefixSlice s a b))
    | ok_bits top ts : Forall good_test ts -> (top = false -> forall b, guarded b ts) ->
        okt top CBitArray (T (ABitArray ts))
    | ok_tuple top ts ps : Forall2 (okt false) ts ps -> okt top (CTuple ts) (T (ATuple ps))
    | ok_nil top t : okt top (CList t) (T AEmptyList)
    | ok_cons top t a r : okt false t a -> okt false (CList t) r -> okt top (CList t) (T (ANonEmptyList a r))
    | ok_variant top m n args inferred ks i k used name module ps :
        mode_of env (CNamed m n args inferred) = Done (MNamed ks inferred) ->
        nth_error ks i = Some k ->
        (forall j, inferred = Some j -> j < length ks) ->
        Forall2 (okt false) (map snd (c_parameters k)) ps ->
        okt top (CNamed m n args inferred) (T (AVariant i used name module ps)).
  Lemma okt_top ty t : okt false ty t -> okt true ty t.
  Proof.
    intros H. remember false as top eqn:E. induction H; subst; try discriminate; econstructor; eauto.
  Qed.

  (** What a check's tree may rely on. *)
  Fixpoint tgood (x : val) (t : tree) : Prop :=
    match t with
    | T (AAssign _ q) => tgood x q
    | T (ABitArray ts) => forall b, x = VBits b -> guarded b ts
    | _ => True
    end.
  Lemma okt_tgood ty t x : okt false ty t -> tgood x t.
  Proof. intros H. remember false as top eqn:E. induction H; subst; cbn; auto. Qed.

  Lemma mode_named m n args inferred ks inf : mode_of env (CNamed m n args inferred) = Done (MNamed ks inf) ->
    inf = inferred /\ exists tv, get_constructors_for_type env m n = Some tv /\
      ((ks = [] /\ tv_opaque tv = true) \/
       ks = map (specialise_constructor (combine (tv_parameters tv) args)) (tv_variants tv)).
  Proof using env.
    cbn. destruct (get_constructors_for_type env m n) as [tv|]; [|discriminate]. intros [= <- <-].
    split; [reflexivity|]. exists tv. split; [reflexivity|]. unfold specialise_constructors.
    destruct (tv_opaque tv && _) eqn:E; [|now right]. apply andb_true_iff in E. left. split; [reflexivity|apply E].
  Qed.
  Lemma named_values m n args inferred ks i k x : mode_of env (CNamed m n args inferred) = Done (MNamed ks inferred) ->
    nth_error ks i = Some k -> has_type x (CNamed m n args inferred) ->
    exists j k' vs, x = VVariant j vs /\ nth_error ks j = Some k' /\
      Forall2 has_type vs (map snd (c_parameters k')) /\ (forall o, inferred = Some o -> j = o).
  Proof using env.
    intros M N H. clear - M N H. destruct (mode_named _ _ _ _ _ _ M) as (_ & tv & G & [[-> _]| ->]).
    { destruct i; discriminate. }
    inversion H as [| | | | | |m' n' args' inferred' tv' j k' vs G' N' I F|m' n' args' inferred' tv' y G' E| | |]; subst.
    - rewrite G' in G. injection G as ->. exists j, (specialise_constructor (combine (tv_parameters tv) args) k'), vs.
      split; [reflexivity|]. split; [now apply map_nth_error|]. split; [|assumption].
      now rewrite specialise_fields.
    - rewrite G' in G. injection G as ->. rewrite E in N. destruct i; discriminate.
  Qed.

  Lemma typed_int x : has_type x CInt -> exists z, x = VInt z.
  Proof. inversion 1; eauto. Qed.
  Lemma typed_float x : has_type x CFloat -> exists z, x = VFloat z.
  Proof. inversion 1; eauto. Qed.
  Lemma typed_string x : has_type x CString -> exists s, x = VString s.
  Proof. inversion 1; eauto. Qed.
  Lemma typed_bits x : has_type x CBitArray -> exists b, x = VBits b.
  Proof. inversion 1; eauto. Qed.
  Lemma typed_list x t : has_type x (CList t) -> exists vs, x = VList vs /\ Forall (fun v => has_type v t) vs.
  Proof. inversion 1; eauto. Qed.
  Lemma typed_tuple x ts : has_type x (CTuple ts) -> exists vs, x = VTuple vs /\ Forall2 has_type vs ts.
  Proof. inversion 1; eauto. Qed.

  Lemma tmatches_some ts vs : Forall2 (fun t v => tmatch t v <> None) ts vs -> tmatches ts vs <> None.
  Proof.
    induction 1 as [|t v ts vs H F IH]; cbn; [discriminate|].
    destruct (tmatch t v); [|congruence]. cbn. destruct (tmatches ts vs); congruence.
  Qed.
  Lemma irref_matches t : forall top ty x, okt top ty t -> has_type x ty -> irref t = true -> tmatch t x <> None.
  Proof.
    induction t as [p IH] using tree_ind'. intros top ty x O H I.
    destruct p; cbn [irref] in I; try discriminate.
    - cbn [irref CaseSem.tmatch]. inversion IH as [|? ? Q _]; subst. inversion O; subst.
      specialize (Q _ _ _ H3 H I). destruct (tmatch pattern x); [discriminate|congruence].
    - rewrite tmatch_tuple. inversion O as [| | | | | | | | |? ts ? F2| | |]; subst.
      inversion H as [| | | | |vs ? F| | | | |]; subst. apply tmatches_some.
      clear O H. cbn in IH. revert vs F. induction F2 as [|t0 p ts ps OP F2 IHF]; intros vs F.
      + inversion F; subst. constructor.
      + inversion F as [|v ? vs' ? HV F']; subst. cbn in I. apply andb_true_iff in I as [I1 I2].
        inversion IH as [|? ? Q1 Q2]; subst. constructor; [eapply Q1; eassumption|]. now apply IHF.
  Qed.

  (** ** Branches *)
  Definition okb (G : nat -> ctype) (n : nat) (b : branch tree) : Prop :=
    Forall (fun c => var_type (fst c) = G (id (fst c)) /\ okt true (var_type (fst c)) (snd c)) (checks b) /\
    NoDup (map (fun c => id (fst c)) (checks b)) /\ below n b.
  Definition goodb (st : store) (b : branch tree) : Prop :=
    Forall (fun c => has_type (st (id (fst c))) (var_type (fst c)) /\ tgood (st (id (fst c))) (snd c)) (checks b).

  Lemma okb_mono G n G' n' b : okb G n b -> (forall i, i < n -> G' i = G i) -> n <= n' -> okb G' n' b.
  Proof.
    intros (F & N & B) E L. split; [|split; [assumption|eapply below_mono; eassumption]].
    destruct B as [B _]. rewrite Forall_forall in *. intros c I. specialize (F c I). specialize (B c I). cbn in *.
    rewrite E by assumption. assumption.
  Qed.
  Lemma goodb_ext G n st st' b : okb G n b -> (forall i, i < n -> st i = st' i) -> goodb st b -> goodb st' b.
  Proof.
    intros (_ & _ & [B _]) E F. unfold goodb in *. rewrite Forall_forall in *. intros c I.
    specialize (B c I). specialize (F c I). cbn in *. now rewrite <- E.
  Qed.

  (** Patterns that are left once the unconditional ones are gone. *)
  Definition refutable (p : pattern tree) : Prop :=
    match p with
    | ADiscard | AVariable _ | AAssign _ _ | AStringPrefixSlice _ _ _ => False
    | AStringPrefix _ name _ => name = None
    | ABitArray ts => ts <> [] /\ front_ok ts
    | _ => True
    end.
  Inductive moved : tree -> tree -> Prop :=
    | moved_same t : moved t t
    | moved_assign n t u : moved t u -> moved (T (AAssign n t)) u
    | moved_name s n r : moved (T (AStringPrefix s n r)) (T (AStringPrefix s None r))
    | moved_tests ts ts' : moved (T (ABitArray ts)) (T (ABitArray ts')).
  Lemma moved_left t u : moved t u -> forall k q sibs, tclash k u q sibs -> tclash k t q sibs.
  Proof.
    induction 1 as [t|n t u M IH|s n r|ts ts']; intros k q sibs C; [assumption|now constructor; auto| |].
    - remember (T (AStringPrefix s None r)) as x eqn:E. induction C; try discriminate; try (injection E; intros; subst); constructor; auto.
    - remember (T (ABitArray ts')) as x eqn:E. induction C; try discriminate; constructor; auto.
  Qed.
  Lemma moved_right t u : moved t u -> forall k p sibs, tclash k p u sibs -> tclash k p t sibs.
  Proof.
    induction 1 as [t|n t u M IH|s n r|ts ts']; intros k q sibs C; [assumption|now constructor; auto| |].
    - remember (T (AStringPrefix s None r)) as x eqn:E. induction C; try discriminate; try (injection E; intros; subst); constructor; auto.
    - remember (T (ABitArray ts')) as x eqn:E. induction C; try discriminate; constructor; auto.
  Qed.

  Lemma pmove_spec t : forall v ty bo, okt true ty t -> exists c bo',
    pmove v t bo = Done (c, bo') /\ body_clause bo' = body_clause bo /\
    (forall n, id v < n -> Forall (fun x => value_below n (snd x)) (body_bindings bo) ->
       Forall (fun x => value_below n (snd x)) (body_bindings bo')) /\
    csize (option_list c) <= tsize t /\
    (forall w u, c = Some (w, u) -> w = v /\ okt true ty u /\ refutable (un u) /\ moved t u /\
       (irref t = true -> irref u = true)) /\
    (forall st, has_type (st (id v)) ty -> tgood (st (id v)) t ->
       (forall w u, c = Some (w, u) -> tgood (st (id v)) u) /\
       peq (both (Some (body_values st bo)) (tmatch t (st (id v))))
           (both (Some (body_values st bo')) (checks_match (option_list c) st))).
  Proof.
    induction t as [p IH] using tree_ind'. intros v ty bo O.
    assert (refutable p -> pmove v (T p) bo = Done (Some (v, T p), bo) -> exists c bo',
      pmove v (T p) bo = Done (c, bo') /\ body_clause bo' = body_clause bo /\
      (forall n, id v < n -> Forall (fun x => value_below n (snd x)) (body_bindings bo) ->
         Forall (fun x => value_below n (snd x)) (body_bindings bo')) /\
      csize (option_list c) <= tsize (T p) /\
      (forall w u, c = Some (w, u) -> w = v /\ okt true ty u /\ refutable (un u) /\ moved (T p) u /\
         (irref (T p) = true -> irref u = true)) /\
      (forall st, has_type (st (id v)) ty -> tgood (st (id v)) (T p) ->
         (forall w u, c = Some (w, u) -> tgood (st (id v)) u) /\
         peq (both (Some (body_values st bo)) (tmatch (T p) (st (id v))))
             (both (Some (body_values st bo')) (checks_match (option_list c) st)))) as KEEP.
    { intros R E. exists (Some (v, T p)), bo. split; [assumption|]. split; [reflexivity|]. split; [auto|].
      split; [unfold csize; cbn [option_list map list_sum fold_right snd]; lia|]. split.
      - intros w u [= <- <-]. repeat split; auto. constructor.
      - intros st H G. split; [now intros w u [= <- <-]|]. cbn [option_list CaseSem.checks_match].
        rewrite both_nil. apply peq_refl. }
    assert (forall bo', pmove v (T p) bo = Done (None, bo') -> body_clause bo' = body_clause bo ->
      (forall n, id v < n -> Forall (fun x => value_below n (snd x)) (body_bindings bo) ->
         Forall (fun x => value_below n (snd x)) (body_bindings bo')) ->
      (forall st, has_type (st (id v)) ty -> tgood (st (id v)) (T p) ->
        peq (both (Some (body_values st bo)) (tmatch (T p) (st (id v)))) (Some (body_values st bo'))) ->
      exists c bo',
      pmove v (T p) bo = Done (c, bo') /\ body_clause bo' = body_clause bo /\
      (forall n, id v < n -> Forall (fun x => value_below n (snd x)) (body_bindings bo) ->
         Forall (fun x => value_below n (snd x)) (body_bindings bo')) /\
      csize (option_list c) <= tsize (T p) /\
      (forall w u, c = Some (w, u) -> w = v /\ okt true ty u /\ refutable (un u) /\ moved (T p) u /\
         (irref (T p) = true -> irref u = true)) /\
      (forall st, has_type (st (id v)) ty -> tgood (st (id v)) (T p) ->
         (forall w u, c = Some (w, u) -> tgood (st (id v)) u) /\
         peq (both (Some (body_values st bo)) (tmatch (T p) (st (id v))))
             (both (Some (body_values st bo')) (checks_match (option_list c) st)))) as DROP.
    { intros bo' E C B M. exists None, bo'. split; [assumption|]. split; [assumption|]. split; [assumption|].
      split; [cbn; lia|]. split; [discriminate|]. intros st H G. split; [discriminate|].
      cbn [option_list CaseSem.checks_match]. rewrite both_nil. auto. }
    destruct p as [|z|f|s|s name rest|s pn rn|n q|n|ps|i un_ nm md ps|a r| |ts]; try (apply KEEP; [exact I|reflexivity]).
    - apply (DROP bo); try reflexivity; auto. intros st H G. cbn. rewrite app_nil_r. apply Permutation_refl.
    - destruct name as [name|]; [|apply KEEP; [reflexivity|reflexivity]].
      exists (Some (v, T (AStringPrefix s None rest))), (assign name (BLiteralString s) bo).
      split; [reflexivity|]. split; [reflexivity|]. split.
      { intros n L B. unfold assign. cbn. apply Forall_app. split; [assumption|]. constructor; [exact I|constructor]. }
      split; [cbn; lia|]. split.
      { intros w u [= <- <-]. split; [reflexivity|]. inversion O; subst. split; [now constructor|].
        split; [reflexivity|]. split; [constructor|discriminate]. }
      intros st H G. split; [now intros w u [= <- <-]|]. rewrite body_values_assign.
      inversion O; subst. destruct (typed_string _ H) as [u X]. cbn [option_list CaseSem.checks_match]. rewrite both_nil.
      rewrite X. cbn [CaseSem.tmatch].
      destruct (list_eq_dec _ _ _); [|exact I].
      cbn [named]. change (named None _) with (@nil (text * val)). rewrite nil_both.
      rewrite both_assoc. apply peq_refl.
    - apply (DROP (match rn with Some n => assign n (BStringSlice v s)
                       (match pn with Some n => assign n (BLiteralString s) bo | None => bo end)
                     | None => match pn with Some n => assign n (BLiteralString s) bo | None => bo end end)).
      + destruct pn, rn; reflexivity.
      + destruct pn, rn; reflexivity.
      + intros n L B. destruct pn, rn; cbn; repeat (apply Forall_app; split); auto; repeat constructor; exact L.
      + intros st H G. inversion O; subst. destruct (typed_string _ H) as [u X]. cbn [CaseSem.tmatch both peq].
        destruct pn, rn; cbn [named]; rewrite ?body_values_assign; cbn [CaseSpec.bound_value_of];
          rewrite ?X; cbn [slice_value app]; rewrite ?app_nil_r, <- ?app_assoc; apply Permutation_refl.
    - inversion IH as [|? ? Q _]; subst. inversion O; subst.
      destruct (Q v ty (assign n (BVariable v) bo) H2) as (c & bo' & E & C & B & S & K & M).
      exists c, bo'. split; [exact E|]. split; [exact C|]. split.
      { intros k L BB. apply B; [assumption|]. cbn. apply Forall_app. split; [assumption|]. constructor; [exact L|constructor]. }
      split; [cbn; lia|]. split.
      { intros w u EQ. destruct (K w u EQ) as (K1 & K2 & K3 & K4 & K5). repeat split; auto. now constructor. }
      intros st H G. destruct (M st H G) as [M1 M2]. split; [assumption|].
      rewrite body_values_assign in M2. eapply peq_trans; [|exact M2].
      change (tmatch (T (AAssign n q)) (st (id v))) with (both (Some [(n, st (id v))]) (tmatch q (st (id v)))).
      rewrite both_assoc. apply peq_refl.
    - apply (DROP (assign n (BVariable v) bo)); try reflexivity.
      + intros k L B. cbn. apply Forall_app. split; [assumption|]. constructor; [exact L|constructor].
      + intros st H G. rewrite body_values_assign. apply Permutation_refl.
    - inversion O as [| | | | | | | |? ? F GD| | | |]; subst.
      assert (Forall plain_test ts) as PT by (eapply Forall_impl; [|exact F]; cbn; intros ? (_ & _ & ? & _); assumption).
      destruct (move_tests_spec outside float_is finite float_value v ts PT bo)
        as (pre & ts' & bo' & -> & E & FO & SP & C & B & M).
      assert (forall st, has_type (st (id v)) CBitArray -> tgood (st (id v)) (T (ABitArray (pre ++ ts'))) ->
        (forall b, st (id v) = VBits b -> guarded b ts') /\
        peq (both (Some (body_values st bo)) (tmatch (T (ABitArray (pre ++ ts'))) (st (id v))))
            (both (Some (body_values st bo')) (tmatch (T (ABitArray ts')) (st (id v))))) as S.
      { intros st H G. destruct (typed_bits _ H) as [b X]. cbn in G.
        destruct (M st b X (G b X)) as (G' & HP & V). split.
        - intros b' X'. rewrite X in X'. injection X' as <-. assumption.
        - rewrite X. cbn [CaseSem.tmatch]. rewrite forallb_app, HP. cbn [andb].
          destruct (forallb (hold b) ts'); [|exact I]. cbn [both peq]. rewrite V.
          unfold tests_values. rewrite flat_map_app, app_assoc. apply Permutation_refl. }
      apply Forall_app in F as [_ F'].
      cbn [pmove]. rewrite E. cbn [bind]. destruct ts' as [|t ts'].
      + exists None, bo'. split; [reflexivity|]. split; [assumption|]. split; [assumption|]. split; [cbn; lia|].
        split; [discriminate|]. intros st H G. split; [discriminate|]. destruct (S st H G) as [_ S2].
        eapply peq_trans; [exact S2|]. cbn [option_list CaseSem.checks_match]. destruct (typed_bits _ H) as [b X]. rewrite X. cbn. rewrite app_nil_r. apply Permutation_refl.
      + exists (Some (v, T (ABitArray (t :: ts')))), bo'. split; [reflexivity|]. split; [assumption|]. split; [assumption|].
        split; [unfold csize; cbn [option_list map list_sum fold_right snd tsize]; rewrite app_length; cbn; lia|].
        split.
        { intros w u [= <- <-]. split; [reflexivity|]. split; [constructor; [assumption|discriminate]|].
          split; [split; [discriminate|exact FO]|]. split; [constructor|discriminate]. }
        intros st H G. destruct (S st H G) as [S1 S2]. split; [now intros w u [= <- <-]|].
        cbn [option_list CaseSem.checks_match]. rewrite both_nil. assumption.
  Qed.
End Static.
