(** What tree patterns and branches match. *)
From Coq Require Import ZArith NArith Bool List Lia Permutation.
From Verif Require Import Text Strings StringsSpec Bits BitsSpec BitsProofs Case CaseSpec CaseText CasePure.
Import ListNotations.
Local Open Scope nat_scope.

Section Sem.
  Context (outside : text -> Z)
          (float_is : text -> endianness -> list bool -> bool)
          (finite : endianness -> list bool -> bool)
          (float_value : text -> val)
          (guards : nat -> list (text * val) -> bool).
  Notation hold := (holds outside float_is finite).
  Notation passes := (passes outside float_is finite).
  Notation bound_value_of := (bound_value_of outside float_value).
  Notation body_values := (body_values outside float_value).

  Definition read_value (r : read_action) (c : list bool) : val :=
    let 'ReadAction _ _ t e signed := r in segment_value t e signed c.
  Definition test_values (b : list bool) (t : test) : list (text * val) :=
    match t with
    | Match v r =>
        match read_of outside b r with
        | Some c => map (fun n => (n, read_value r c)) (value_names v)
        | None => []
        end
    | _ => []
    end.
  Definition tests_values (b : list bool) : list test -> list (text * val) := flat_map (test_values b).

  Definition slice_value (v : val) (p : text) : val :=
    match v with VString s => VString (skipn (length (text_of p)) s) | _ => VOther 0 end.

  Definition both {A} (a b : option (list A)) : option (list A) :=
    match a, b with Some a, Some b => Some (a ++ b) | _, _ => None end.

  Fixpoint tmatch (t : tree) (v : val) : option (list (text * val)) :=
    let tmatches :=
      (fix tmatches ts vs :=
         match ts, vs with
         | [], [] => Some []
         | t :: ts, v :: vs => both (tmatch t v) (tmatches ts vs)
         | _, _ => None
         end) in
    match t with
    | T ADiscard => Some []
    | T (AVariable n) => Some [(n, v)]
    | T (AAssign n t) => both (Some [(n, v)]) (tmatch t v)
    | T (AInt z) => match v with VInt z' => if Z.eq_dec z z' then Some [] else None | _ => None end
    | T (AFloat z) => match v with VFloat z' => if N.eq_dec z z' then Some [] else None | _ => None end
    | T (AString s) =>
        match v with VString u => if list_eq_dec N.eq_dec (text_of s) u then Some [] else None | _ => None end
    | T (AStringPrefix p name r) =>
        match v with
        | VString u =>
            if list_eq_dec N.eq_dec (text_of p) (firstn (length (text_of p)) u)
            then both (Some (named name (VString (text_of p)))) (tmatch r (VString (skipn (length (text_of p)) u)))
            else None
        | _ => None
        end
    | T (AStringPrefixSlice p name rest) =>
        Some (named name (VString (text_of p)) ++ named rest (slice_value v p))
    | T (ATuple ts) => match v with VTuple vs => tmatches ts vs | _ => None end
    | T (AVariant i _ _ _ ts) =>
        match v with VVariant j vs => if Nat.eq_dec i j then tmatches ts vs else None | _ => None end
    | T (ANonEmptyList a r) =>
        match v with VList (x :: xs) => both (tmatch a x) (tmatch r (VList xs)) | _ => None end
    | T AEmptyList => match v with VList [] => Some [] | _ => None end
    | T (ABitArray ts) =>
        match v with VBits b => if forallb (hold b) ts then Some (tests_values b ts) else None | _ => None end
    end.
  Fixpoint tmatches (ts : list tree) (vs : list val) : option (list (text * val)) :=
    match ts, vs with
    | [], [] => Some []
    | t :: ts, v :: vs => both (tmatch t v) (tmatches ts vs)
    | _, _ => None
    end.
  Lemma tmatch_tuple ts v : tmatch (T (ATuple ts)) v = match v with VTuple vs => tmatches ts vs | _ => None end.
  Proof. destruct v; reflexivity. Qed.
  Lemma tmatch_variant i a b c ts v : tmatch (T (AVariant i a b c ts)) v =
    match v with VVariant j vs => if Nat.eq_dec i j then tmatches ts vs else None | _ => None end.
  Proof. destruct v; reflexivity. Qed.

  (** ** Branches *)
  Fixpoint checks_match (cs : list (cvar * tree)) (st : store) : option (list (text * val)) :=
    match cs with
    | [] => Some []
    | (v, t) :: cs => both (tmatch t (st (id v))) (checks_match cs st)
    end.
  Definition branch_match (br : branch tree) (st : store) : option (list (text * val)) :=
    both (Some (body_values st (branch_body br))) (checks_match (checks br) st).
  Definition guard_holds (g : option branch_guard) (l : list (text * val)) : bool :=
    match g with Some g => guards (guard_clause g) l | None => true end.
  Definition selected (br : branch tree) (st : store) : option (list (text * val)) :=
    match branch_match br st with
    | Some l => if guard_holds (guard br) l then Some l else None
    | None => None
    end.
  Definition outcome : Type := option ((nat * nat) * nat * list (text * val)).
  Fixpoint first_match (bs : list (branch tree)) (st : store) : outcome :=
    match bs with
    | [] => None
    | b :: bs =>
        match selected b st with
        | Some l => Some (branch_id b, body_clause (branch_body b), l)
        | None => first_match bs st
        end
    end.

  (** Up to the order of the bindings. *)
  Definition peq {A} (a b : option (list A)) : Prop :=
    match a, b with
    | Some a, Some b => Permutation a b
    | None, None => True
    | _, _ => False
    end.
  Definition same_outcome (a b : outcome) : Prop :=
    match a, b with
    | Some (i, c, l), Some (j, d, m) => i = j /\ c = d /\ Permutation l m
    | None, None => True
    | _, _ => False
    end.
  Lemma peq_refl {A} (a : option (list A)) : peq a a.
  Proof. destruct a; cbn; auto. Qed.
  Lemma peq_sym {A} (a b : option (list A)) : peq a b -> peq b a.
  Proof. destruct a, b; cbn; auto. intros. now apply Permutation_sym. Qed.
  Lemma peq_trans {A} (a b c : option (list A)) : peq a b -> peq b c -> peq a c.
  Proof. destruct a, b, c; cbn; intuition. eapply Permutation_trans; eassumption. Qed.
  Lemma peq_both {A} (a b c d : option (list A)) : peq a b -> peq c d -> peq (both a c) (both b d).
  Proof. destruct a, b, c, d; cbn; intuition. now apply Permutation_app. Qed.
  Lemma both_comm {A} (a b : option (list A)) : peq (both a b) (both b a).
  Proof. destruct a, b; cbn; auto. apply Permutation_app_comm. Qed.
  Lemma both_assoc {A} (a b c : option (list A)) : both a (both b c) = both (both a b) c.
  Proof. destruct a, b, c; cbn; auto. now rewrite app_assoc. Qed.
  Lemma both_nil {A} (a : option (list A)) : both a (Some []) = a.
  Proof. destruct a; cbn; auto. now rewrite app_nil_r. Qed.
  Lemma nil_both {A} (a : option (list A)) : both (Some []) a = a.
  Proof. destruct a; reflexivity. Qed.
  Lemma same_refl a : same_outcome a a.
  Proof. destruct a as [[[i c] l]|]; cbn; auto. Qed.
  Lemma same_sym a b : same_outcome a b -> same_outcome b a.
  Proof. destruct a as [[[i c] l]|], b as [[[j d] m]|]; cbn; intuition auto using Permutation_sym. Qed.
  Lemma same_trans a b c : same_outcome a b -> same_outcome b c -> same_outcome a c.
  Proof.
    clear.
    destruct a as [[[i x] l]|], b as [[[j y] m]|], c as [[[k z] n]|]; cbn; intuition; try congruence.
    eapply Permutation_trans; eassumption.
  Qed.
  Lemma same_none a : same_outcome a None <-> a = None.
  Proof. destruct a as [[[i x] l]|]; cbn; intuition; discriminate. Qed.

  Lemma checks_match_app a b st : checks_match (a ++ b) st = both (checks_match a st) (checks_match b st).
  Proof.
    induction a as [|[v t] a IH]; cbn [checks_match app]; [now rewrite nil_both|]. now rewrite IH, both_assoc.
  Qed.
  Lemma checks_match_perm a b st : Permutation a b -> peq (checks_match a st) (checks_match b st).
  Proof.
    induction 1 as [|[v t] a b P IH|[v t] [w u] a|a b c P1 IH1 P2 IH2]; cbn [checks_match].
    - apply peq_refl.
    - apply peq_both; [apply peq_refl|assumption].
    - rewrite !both_assoc. apply peq_both; [apply both_comm|apply peq_refl].
    - eapply peq_trans; eassumption.
  Qed.
  Lemma first_match_app a b st : first_match (a ++ b) st =
    match first_match a st with Some r => Some r | None => first_match b st end.
  Proof. induction a as [|x a IH]; cbn; [reflexivity|]. destruct (selected x st); auto. Qed.

  Context (guards_perm : forall c l m, Permutation l m -> guards c l = guards c m).

  Lemma guard_holds_perm g l m : Permutation l m -> guard_holds g l = guard_holds g m.
  Proof. destruct g as [g|]; cbn; auto. Qed.

  (** Two branches that match alike. *)
  Definition alike (b : branch tree) (st : store) (b' : branch tree) (st' : store) : Prop :=
    branch_id b = branch_id b' /\ guard b = guard b' /\
    body_clause (branch_body b) = body_clause (branch_body b') /\
    peq (branch_match b st) (branch_match b' st').
  Lemma alike_selected b st b' st' : alike b st b' st' -> peq (selected b st) (selected b' st').
  Proof.
    intros (_ & G & _ & P). unfold selected. rewrite G.
    destruct (branch_match b st) as [l|], (branch_match b' st') as [m|]; cbn in P; try tauto.
    rewrite (guard_holds_perm _ _ _ P). destruct (guard_holds (guard b') m); cbn; auto.
  Qed.
  Lemma first_match_alike bs st bs' st' : Forall2 (fun b b' => alike b st b' st') bs bs' ->
    same_outcome (first_match bs st) (first_match bs' st').
  Proof.
    induction 1 as [|b b' bs bs' A F IH]; cbn; [exact I|].
    pose proof (alike_selected _ _ _ _ A) as P. destruct A as (I & _ & C & _).
    destruct (selected b st), (selected b' st'); cbn in P; try tauto. cbn. now rewrite I, C.
  Qed.
  Lemma alike_refl b st : alike b st b st.
  Proof. repeat split. apply peq_refl. Qed.
  Lemma alike_trans a s b t c u : alike a s b t -> alike b t c u -> alike a s c u.
  Proof.
    intros (I & G & C & P) (I' & G' & C' & P'). repeat split; try congruence. eapply peq_trans; eassumption.
  Qed.

  (** ** Stores that agree *)
  Definition value_below (n : nat) (b : bound_value) : Prop :=
    match b with
    | BVariable v | BBitArraySlice v _ | BStringSlice v _ => id v < n
    | _ => True
    end.
  Definition below (n : nat) (b : branch tree) : Prop :=
    Forall (fun c => id (fst c) < n) (checks b) /\
    Forall (fun x => value_below n (snd x)) (body_bindings (branch_body b)).
  Lemma below_mono n m b : below n b -> n <= m -> below m b.
  Proof using.
    intros [A B] L. clear - A B L. split; eapply Forall_impl; try eassumption; cbn; intros; [lia|].
    destruct a as [x []]; cbn in *; lia.
  Qed.
  Lemma body_values_ext n st st' b : Forall (fun x => value_below n (snd x)) (body_bindings b) ->
    (forall i, i < n -> st i = st' i) -> body_values st b = body_values st' b.
  Proof.
    intros F E. unfold CaseSpec.body_values. apply map_ext_in. intros [x v] I. rewrite Forall_forall in F.
    specialize (F _ I). destruct v; cbn in *; rewrite ?E by assumption; reflexivity.
  Qed.
  Lemma checks_match_ext n st st' cs : Forall (fun c => id (fst c) < n) cs ->
    (forall i, i < n -> st i = st' i) -> checks_match cs st = checks_match cs st'.
  Proof.
    intros F E. induction F as [|[v t] cs L F IH]; cbn; [reflexivity|]. cbn in L. now rewrite E, IH.
  Qed.
  Lemma branch_match_ext n st st' b : below n b -> (forall i, i < n -> st i = st' i) ->
    branch_match b st = branch_match b st'.
  Proof.
    intros [A B] E. unfold branch_match. now rewrite (body_values_ext n st st'), (checks_match_ext n st st').
  Qed.
  Lemma alike_ext n st st' b : below n b -> (forall i, i < n -> st i = st' i) -> alike b st b st'.
  Proof. intros B E. repeat split. rewrite (branch_match_ext n st st' b B E). apply peq_refl. Qed.
  Lemma first_match_ext n st st' bs : Forall (below n) bs -> (forall i, i < n -> st i = st' i) ->
    same_outcome (first_match bs st) (first_match bs st').
  Proof.
    intros F E. apply first_match_alike. induction F; constructor; [eapply alike_ext; eassumption|assumption].
  Qed.

  (** Replacing the check on the pivot. *)
  Lemma alike_replace b st b' st' n v p cs new :
    Permutation (checks b) ((v, p) :: cs) ->
    b' = Branch (clause_index b) (alternative_index b) (cs ++ new) (guard b) (branch_body b) ->
    below n b -> (forall i, i < n -> st i = st' i) ->
    peq (tmatch p (st (id v))) (checks_match new st') ->
    alike b st b' st'.
  Proof.
    intros P -> B E M. repeat split. unfold branch_match. cbn [checks branch_body].
    rewrite (body_values_ext n st st' (branch_body b)) by (try apply B; assumption).
    apply peq_both; [apply peq_refl|].
    eapply peq_trans; [apply checks_match_perm, P|]. cbn [checks_match]. rewrite checks_match_app.
    assert (Forall (fun c => id (fst c) < n) cs) as F.
    { destruct B as [B _]. apply (Permutation_Forall P) in B. now inversion B. }
    rewrite (checks_match_ext n st st' cs F E).
    eapply peq_trans; [apply both_comm|]. apply peq_both; [apply peq_refl|assumption].
  Qed.
  Lemma not_selected b st v p cs : Permutation (checks b) ((v, p) :: cs) -> tmatch p (st (id v)) = None ->
    selected b st = None.
  Proof.
    intros P M. unfold selected, branch_match.
    pose proof (checks_match_perm _ _ st P) as Q. cbn [checks_match] in Q. rewrite M in Q. cbn in Q.
    destruct (checks_match (checks b) st); cbn in Q; [tauto|reflexivity].
  Qed.

  (** ** Moving unconditional patterns *)

  (** A test that reads is preceded by tests that make the read possible. *)
  Definition readable (b : list bool) (t : test) : Prop :=
    match t with Match _ r => exists c, read_of outside b r = Some c | _ => True end.
  Fixpoint guarded (b : list bool) (ts : list test) : Prop :=
    match ts with
    | [] => True
    | t :: ts => readable b t /\ (hold b t = true -> guarded b ts)
    end.
  Lemma guarded_filter b f ts : guarded b ts -> (forall t, In t ts -> f t = false -> hold b t = true) ->
    guarded b (filter f ts).
  Proof.
    induction ts as [|t ts IH]; cbn; [auto|]. intros [R G] H. destruct (f t) eqn:E; cbn.
    - split; [assumption|]. intros K. apply IH; auto.
    - apply IH; auto.
  Qed.

  Definition plain_value (v : matched_value) : Prop := forall n w, v = MAssign n w -> exists m, w = MDiscard m.
  Definition plain_test (t : test) : Prop := match t with Match v _ => plain_value v | _ => True end.
  (** Tests that always hold once they can be read. *)
  Definition strippable (t : test) : bool :=
    match t with
    | Match (MVariable _) _ | Match (MDiscard _) _ | Match (MAssign _ (MDiscard _)) _ => true
    | _ => false
    end.
  Lemma strippable_holds b t : strippable t = true -> readable b t -> hold b t = true.
  Proof.
    destruct t as [|v r| | |]; cbn; try discriminate.
    intros S [c R]. rewrite R. destruct v as [| | | | |n v]; try discriminate; try reflexivity.
    destruct v; try discriminate; reflexivity.
  Qed.
  Definition front_ok (ts : list test) : Prop := match ts with t :: _ => strippable t = false | [] => True end.

  Lemma body_values_assign st n v b : body_values st (assign n v b) = body_values st b ++ [(n, bound_value_of st v)].
  Proof. unfold CaseSpec.body_values, assign. cbn. now rewrite map_app. Qed.

  Lemma move_tests_spec v ts : Forall plain_test ts -> forall bo, exists pre ts' bo',
    ts = pre ++ ts' /\ move_tests v ts bo = Done (ts', bo') /\ front_ok ts' /\
    forallb strippable pre = true /\ body_clause bo' = body_clause bo /\
    (forall n, id v < n -> Forall (fun x => value_below n (snd x)) (body_bindings bo) ->
       Forall (fun x => value_below n (snd x)) (body_bindings bo')) /\
    (forall st b, st (id v) = VBits b -> guarded b ts ->
       guarded b ts' /\ forallb (hold b) pre = true /\
       body_values st bo' = body_values st bo ++ tests_values b pre).
  Proof.
    intros F. induction F as [|t ts PT F IH]; intros bo.
    - exists [], [], bo. cbn. repeat split; auto. now rewrite app_nil_r.
    - assert (forall bo1, strippable t = true ->
        move_tests v (t :: ts) bo = move_tests v ts bo1 -> body_clause bo1 = body_clause bo ->
        (forall n, id v < n -> Forall (fun x => value_below n (snd x)) (body_bindings bo) ->
           Forall (fun x => value_below n (snd x)) (body_bindings bo1)) ->
        (forall st b, st (id v) = VBits b -> readable b t -> body_values st bo1 = body_values st bo ++ test_values b t) ->
        exists pre ts' bo',
          t :: ts = pre ++ ts' /\ move_tests v (t :: ts) bo = Done (ts', bo') /\ front_ok ts' /\
          forallb strippable pre = true /\ body_clause bo' = body_clause bo /\
          (forall n, id v < n -> Forall (fun x => value_below n (snd x)) (body_bindings bo) ->
             Forall (fun x => value_below n (snd x)) (body_bindings bo')) /\
          (forall st b, st (id v) = VBits b -> guarded b (t :: ts) ->
             guarded b ts' /\ forallb (hold b) pre = true /\
             body_values st bo' = body_values st bo ++ tests_values b pre)) as STEP.
      { intros bo1 S E C BL V. destruct (IH bo1) as (pre & ts' & bo' & -> & M & FO & SP & C' & BL' & V').
        exists (t :: pre), ts', bo'. split; [reflexivity|]. split; [now rewrite E|]. split; [assumption|].
        split; [cbn; now rewrite S|]. split; [congruence|]. split; [eauto|].
        intros st b X [R G]. pose proof (strippable_holds b t S R) as H.
        destruct (V' st b X (G H)) as (G' & HP & E'). split; [assumption|]. split; [cbn; now rewrite H|].
        rewrite E', (V st b X R), <- app_assoc. reflexivity. }
      assert (strippable t = false -> move_tests v (t :: ts) bo = Done (t :: ts, bo) ->
        exists pre ts' bo',
          t :: ts = pre ++ ts' /\ move_tests v (t :: ts) bo = Done (ts', bo') /\ front_ok ts' /\
          forallb strippable pre = true /\ body_clause bo' = body_clause bo /\
          (forall n, id v < n -> Forall (fun x => value_below n (snd x)) (body_bindings bo) ->
             Forall (fun x => value_below n (snd x)) (body_bindings bo')) /\
          (forall st b, st (id v) = VBits b -> guarded b (t :: ts) ->
             guarded b ts' /\ forallb (hold b) pre = true /\
             body_values st bo' = body_values st bo ++ tests_values b pre)) as STOP.
      { intros S E. exists [], (t :: ts), bo. repeat split; auto.
        - apply H0.
        - apply H0.
        - cbn. now rewrite app_nil_r. }
      destruct t as [|w r| | |]; try (apply STOP; reflexivity).
      destruct w as [f|z bs|s bs|n|n|n w]; try (apply STOP; reflexivity).
      + apply (STEP (assign n (BBitArraySlice v r) bo)); try reflexivity.
        * intros k L B. unfold assign. cbn. apply Forall_app. split; [assumption|]. constructor; [|constructor]. exact L.
        * intros st b X [c R]. rewrite body_values_assign. cbn. rewrite X, R. destruct r. reflexivity.
      + apply (STEP bo); try reflexivity; auto.
        intros st b X [c R]. cbn. rewrite R. cbn. now rewrite app_nil_r.
      + destruct (PT n w eq_refl) as [m ->].
        apply (STEP (assign n (BBitArraySlice v r) bo)); try reflexivity.
        * intros k L B. unfold assign. cbn. apply Forall_app. split; [assumption|]. constructor; [|constructor]. exact L.
        * intros st b X [c R]. rewrite body_values_assign. cbn. rewrite X, R. destruct r. reflexivity.
  Qed.
End Sem.
