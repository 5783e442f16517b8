(** From the patterns of the source to the trees the compiler works on. *)
From Coq Require Import ZArith NArith Bool List Lia Permutation.
From Verif Require Import Text Strings StringsSpec StringsProofs Bits BitsSpec BitsProofs BitsMatchProofs.
From Verif Require Import Case CaseSpec CaseText CasePure CaseSem CaseStatic CaseMove.
Import ListNotations.
Local Open Scope nat_scope.

Section SourceInd.
  Context (Q : source -> Prop).
  Definition subsources (p : source) : list source :=
    match p with
    | TPAssign _ p => [p]
    | TPTuple ps | TPConstructor _ _ _ _ ps => ps
    | TPList ps tail => ps ++ match tail with Some p => [p] | None => [] end
    | _ => []
    end.
  Context (step : forall p, Forall Q (subsources p) -> Q p).
  Fixpoint source_ind' (p : source) : Q p.
  Proof.
    apply step. destruct p; cbn; try (constructor; fail); try (repeat constructor; apply source_ind').
    - induction elements; constructor; [apply source_ind'|assumption].
    - induction elements as [|e es IH]; cbn.
      + destruct tail as [p|]; constructor; [apply source_ind'|constructor].
      + constructor; [apply source_ind'|exact IH].
    - induction arguments; constructor; [apply source_ind'|assumption].
  Defined.
End SourceInd.

(** ** Bit array patterns *)
Section SourceBits.
  Context (outside : text -> Z)
          (float_is : text -> endianness -> list bool -> bool)
          (finite : endianness -> list bool -> bool)
          (b : list bool).
  Notation hold := (holds outside float_is finite b).
  Notation guarded := (guarded outside float_is finite b).
  Notation eval_offset := (eval_offset outside b).
  Notation eval_size := (eval_size outside b).
  Notation tests_values := (tests_values outside b).

  Lemma guarded_app l m : guarded l -> (forallb hold l = true -> guarded m) -> guarded (l ++ m).
  Proof.
    induction l as [|t l IH]; cbn; [auto|]. intros [R G] H. split; [assumption|]. intros K. apply IH; [auto|].
    intros E. apply H. now rewrite K, E.
  Qed.
  Lemma guarded_trivial l : (forall v r, ~ In (Match v r) l) -> guarded l.
  Proof.
    induction l as [|t l IH]; cbn; [auto|]. intros N. split.
    - destruct t; cbn; auto. exfalso. eapply N. now left.
    - intros _. apply IH. intros v r I. eapply N. right. exact I.
  Qed.

  Lemma segment_tests_guarded s prev sz last r v :
    (0 <= eval_offset prev <= Z.of_nat (length b))%Z -> ra_from r = prev -> ra_size r = sz ->
    guarded (segment_tests s prev sz last r v).
  Proof.
    intros P EF ES. unfold segment_tests. rewrite !app_assoc. apply guarded_app.
    - apply guarded_trivial. intros w q I. rewrite !in_app_iff in I. destruct I as [[I|I]|I].
      + destruct (can_be_negative sz); cbn in I; intuition discriminate.
      + destruct sz; cbn in I; intuition discriminate.
      + destruct (match type_ s with TFloat => _ | _ => _ end); cbn in I; intuition discriminate.
    - intros H. cbn. split; [|auto]. rewrite !forallb_app, !andb_true_iff in H. destruct H as [[H1 H2] _].
      assert (0 <= eval_size sz)%Z as N.
      { destruct (can_be_negative sz) eqn:E; [|now apply can_be_negative_sound]. cbn [forallb] in H1. rewrite andb_true_r in H1. unfold holds in H1. lia. }
      apply (size_tests_holds outside float_is finite b) in H2. unfold read_of. rewrite EF, ES. fold (eval_offset prev).
      assert (forall n, (0 <= n)%Z -> (eval_offset prev + n <= Z.of_nat (length b))%Z -> exists c, read b (eval_offset prev) n = Some c) as RD.
      { intros n N1 N2. unfold read. destruct (_ && _) eqn:E; [eauto|]. lia. }
      destruct sz; try (apply RD; [lia|]; destruct last; lia); apply RD; lia.
  Qed.
  Lemma segments_loop_guarded segs : valid_segments segs -> forall prev vs,
    (0 <= eval_offset prev <= Z.of_nat (length b))%Z -> guarded (segments_loop segs prev vs).
  Proof.
    induction segs as [|s segs IH]; intros V prev vs P; [exact I|].
    assert (valid_segment s /\ valid_segments segs) as [Vs Vr] by (destruct segs; cbn in V |- *; tauto).
    rewrite segments_loop_cons. cbv zeta. set (sz := segment_size s vs).
    apply guarded_app; [now apply segment_tests_guarded|]. intros H.
    apply (segment_tests_holds outside float_is finite b s prev sz _ (value s)) in H. destruct H as (N & H & _).
    apply size_tests_holds in H. apply IH; [assumption|]. rewrite eval_add_size.
    assert (eval_size RemainingBits = 0%Z /\ eval_size RemainingBytes = 0%Z) as [Z1 Z2] by (split; reflexivity).
    destruct sz; try (destruct segs; lia); rewrite ?Z1, ?Z2; lia.
  Qed.

  Lemma tests_guarded segs : valid_segments segs -> guarded (bit_array_to_tests segs).
  Proof.
    intros V. destruct segs as [|s segs]; [cbn; auto|]. apply segments_loop_guarded; [assumption|]. rewrite eval_constant_offset. lia.
  Qed.

  Lemma tests_values_app l m : tests_values (l ++ m) = tests_values l ++ tests_values m.
  Proof. apply flat_map_app. Qed.
  Lemma segment_tests_values s prev sz last r v c : read_of outside b r = Some c ->
    tests_values (segment_tests s prev sz last r v) = map (fun n => (n, read_value r c)) (value_names v).
  Proof.
    intros R. unfold segment_tests. rewrite !tests_values_app.
    assert (tests_values (if can_be_negative sz then [ReadSizeIsNotNegative sz] else []) = []) as -> by now destruct (can_be_negative sz).
    assert (tests_values (size_tests prev sz last) = []) as -> by now destruct sz.
    assert (forall g : bool, tests_values (if g then [SegmentIsFiniteFloat r] else []) = []) as -> by now intros [].
    cbn. rewrite R. apply app_nil_r.
  Qed.
  Lemma combine_map_same {A B C} (f : A -> B) (g : A -> C) (l : list A) bs cs :
    combine (map f l ++ bs) (map g l ++ cs) = map (fun x => (f x, g x)) l ++ combine bs cs.
  Proof. induction l as [|x l IH]; cbn; [reflexivity|]. now rewrite IH. Qed.
  Lemma loop_values segs : forall prev vs, forallb hold (segments_loop segs prev vs) = true ->
    tests_values (segments_loop segs prev vs) = CaseSpec.segment_bindings segs (bindings outside b (segments_loop segs prev vs)).
  Proof.
    induction segs as [|s segs IH]; intros prev vs H; [reflexivity|]. rewrite segments_loop_cons in *. cbv zeta in *.
    set (sz := segment_size s vs) in *. rewrite forallb_app, andb_true_iff in H. destruct H as [H1 H2].
    apply (segment_tests_holds outside float_is finite b s prev sz _ (value s)) in H1. destruct H1 as (_ & _ & c & R & _).
    rewrite tests_values_app, (BitsMatchProofs.bindings_app outside b).
    rewrite (segment_tests_values _ _ _ _ _ _ c R), (BitsMatchProofs.segment_bindings outside b _ _ _ _ _ _ c R), value_names_spec, IH by assumption.
    unfold CaseSpec.segment_bindings, named_segments. cbn [flat_map]. rewrite combine_map_same, map_app, map_map. reflexivity.
  Qed.
  Lemma tests_values_spec segs : forallb hold (bit_array_to_tests segs) = true ->
    tests_values (bit_array_to_tests segs) = CaseSpec.segment_bindings segs (bindings outside b (bit_array_to_tests segs)).
  Proof. destruct segs as [|s segs]; [reflexivity|]. apply loop_values. Qed.
End SourceBits.

(** ** Matching *)
Section SourceMatch.
  Context (env : environment)
          (outside : text -> Z)
          (float_is : text -> endianness -> list bool -> bool)
          (finite : endianness -> list bool -> bool).
  Notation tmatch := (tmatch outside float_is finite).
  Notation tmatches := (tmatches outside float_is finite).
  Notation pattern_matches := (pattern_matches outside float_is finite).
  Notation patterns_match := (patterns_match outside float_is finite).

  Lemma tree_of_cons p ps tail : tree_of (TPList (p :: ps) tail) = T (ANonEmptyList (tree_of p) (tree_of (TPList ps tail))).
  Proof. reflexivity. Qed.

  Lemma both_some {A} (a b : option (list A)) l : both a b = Some l <-> exists x y, a = Some x /\ b = Some y /\ l = x ++ y.
  Proof.
    destruct a as [x|], b as [y|]; cbn; (split; [try discriminate|intros (u & v & E1 & E2 & ->); congruence]).
    intros [= <-]. eauto.
  Qed.

  Definition spec (ty : ctype) (p : source) : Prop :=
    forall v, has_type env v ty -> forall bs, pattern_matches p v bs <-> tmatch (tree_of p) v = Some bs.
  Lemma all_spec ts ps : Forall2 spec ts ps -> forall vs, Forall2 (has_type env) vs ts ->
    forall bs, patterns_match ps vs bs <-> tmatches (map tree_of ps) vs = Some bs.
  Proof.
    induction 1 as [|ty p ts ps H F IH]; intros vs TV bs; inversion TV as [|v ? vs' ? T1 T2]; subst; cbn [map CaseSem.tmatches].
    - split; intros K; [inversion K; reflexivity|injection K as <-; constructor].
    - rewrite both_some. split.
      + intros K. inversion K as [|? ? ? ? x y M1 M2]; subst. exists x, y. split; [now apply H|]. split; [now apply IH|reflexivity].
      + intros (x & y & E1 & E2 & ->). constructor; [now apply H|now apply IH].
  Qed.
  Lemma list_spec t ps tail (R : list val -> list (text * val) -> Prop) : Forall (spec t) ps ->
    (forall vs bs, R vs bs <-> tmatch (tree_of (TPList [] tail)) (VList vs) = Some bs) ->
    forall vs, Forall (fun v => has_type env v t) vs -> forall bs,
    (exists a b x y, vs = a ++ b /\ bs = x ++ y /\ patterns_match ps a x /\ R b y) <-> tmatch (tree_of (TPList ps tail)) (VList vs) = Some bs.
  Proof.
    intros F HR. induction F as [|p ps H F IH]; intros vs TV bs.
    - rewrite <- HR. split.
      + intros (a & b & x & y & -> & -> & M & HB). inversion M; subst. exact HB.
      + intros HB. exists [], vs, [], bs. split; [reflexivity|]. split; [reflexivity|]. split; [constructor|assumption].
    - rewrite tree_of_cons. cbn [CaseSem.tmatch]. destruct vs as [|v vs].
      + split; [|discriminate]. intros (a & b & x & y & E & -> & M & _). inversion M; subst. discriminate.
      + inversion TV as [|? ? T1 T2]; subst. rewrite both_some. split.
        * intros (a & b & x & y & E & -> & M & HB). inversion M as [|? ? v' a' x1 x2 M1 M2]; subst. injection E as -> ->.
          exists x1, (x2 ++ y). split; [now apply H|]. split; [|now rewrite app_assoc]. apply IH; [assumption|]. exists a', b, x2, y. auto.
        * intros (x1 & x2 & E1 & E2 & ->). apply IH in E2; [|assumption]. destruct E2 as (a & b & x & y & -> & -> & M & HB).
          exists (v :: a), b, (x1 ++ x), y. split; [reflexivity|]. split; [now rewrite app_assoc|]. split; [|assumption]. constructor; [now apply H|assumption].
  Qed.

  Lemma literal_iff s m u : literal s m -> (literal s u <-> text_of s = u).
  Proof.
    intros L. unfold text_of. pose proof (convert_literal s m L) as E. split; [apply convert_literal|]. intros <-. now rewrite E.
  Qed.
  Lemma firstn_prefix {A} (p s : list A) : p = firstn (length p) s <-> exists r, s = p ++ r.
  Proof.
    split.
    - intros E. exists (skipn (length p) s). rewrite E at 1. symmetry. apply firstn_skipn.
    - intros [r ->]. now rewrite firstn_app, Nat.sub_diag, firstn_all, app_nil_r.
  Qed.

  Lemma pattern_spec p : forall ty, pattern_type env ty p -> spec ty p.
  Proof.
    induction p as [p IH] using source_ind'. intros ty TY.
    assert (forall ps ts, Forall (fun p => forall ty, pattern_type env ty p -> spec ty p) ps -> Forall2 (pattern_type env) ts ps -> Forall2 spec ts ps) as SUBS.
    { intros ps ts A F. induction F; [constructor|]. inversion A; subst. constructor; eauto. }
    assert (forall ps t, Forall (fun p => forall ty, pattern_type env ty p -> spec ty p) ps -> Forall (pattern_type env t) ps -> Forall (spec t) ps) as SAME.
    { intros ps t A F. induction F; [constructor|]. inversion A; subst. constructor; eauto. }
    destruct TY as [t|t n|t n p TY|z|f|s m L|s m l r L|segs V|ts ps F|t ps F|t ps F|t ps n F|m n args inferred tv i k used name module ps G O N J F];
      cbn [subsources] in IH; intros v TV bs.
    - cbn. split; [intros K; inversion K; reflexivity|intros [= <-]; constructor].
    - cbn. split; [intros K; inversion K; reflexivity|intros [= <-]; constructor].
    - inversion IH as [|? ? H _]; subst. specialize (H t TY v TV). cbn [tree_of CaseSem.tmatch]. rewrite both_some. split.
      + intros K. inversion K as [| |? ? ? x M| | | | | | | | |]; subst. exists [(n, v)], x. split; [reflexivity|]. split; [now apply H|reflexivity].
      + intros (x & y & [= <-] & E & ->). cbn. constructor. now apply H.
    - cbn. split.
      + intros K. inversion K; subst. destruct (Z.eq_dec z z); [reflexivity|congruence].
      + destruct v; try discriminate. destruct (Z.eq_dec z z0); [|discriminate]. subst. intros [= <-]. constructor.
    - cbn. split.
      + intros K. inversion K; subst. destruct (N.eq_dec f f); [reflexivity|congruence].
      + destruct v; try discriminate. destruct (N.eq_dec f bits); [|discriminate]. subst. intros [= <-]. constructor.
    - inversion TV as [| |u| | | | | | | |]; subst. cbn. split.
      + intros K. inversion K as [| | | | |? u' L'| | | | | |]; subst. apply (literal_iff s m u L) in L'.
        destruct (list_eq_dec N.eq_dec (text_of s) u); [reflexivity|congruence].
      + destruct (list_eq_dec N.eq_dec (text_of s) u) as [E|]; [|discriminate]. intros [= <-]. constructor. now apply (literal_iff s m).
    - pose proof (proj1 (literal_iff s m m L) L) as E. subst m. inversion TV as [| |u| | | | | | | |]; subst v.
      assert (tmatch (tree_of (TPStringPrefix s l r)) (VString u) =
        if list_eq_dec N.eq_dec (text_of s) (firstn (length (text_of s)) u)
        then Some (named l (VString (text_of s)) ++ named r (VString (skipn (length (text_of s)) u))) else None) as -> by (destruct r; reflexivity).
      split.
      + intros K. inversion K as [| | | | | |? m' ? ? rest L'| | | | |]. subst. apply (literal_iff s _ m' L) in L'. subst m'.
        destruct (list_eq_dec N.eq_dec (text_of s) (firstn (length (text_of s)) (text_of s ++ rest))) as [_|X]; [|exfalso; apply X, firstn_prefix; eauto].
        rewrite skipn_app, Nat.sub_diag, skipn_all. reflexivity.
      + destruct (list_eq_dec N.eq_dec (text_of s) (firstn (length (text_of s)) u)) as [X|]; [|discriminate].
        apply firstn_prefix in X. destruct X as [rest ->]. rewrite skipn_app, Nat.sub_diag, skipn_all. cbn. intros [= <-]. now constructor.
    - inversion TV as [| | |u| | | | | | |]; subst v. cbn [tree_of CaseSem.tmatch]. split.
      + intros K. inversion K as [| | | | | | |? u' bound M| | | |]; subst. apply tests_spec in M; [|assumption]. destruct M as [H ->].
        rewrite H. f_equal. now apply (tests_values_spec outside float_is finite).
      + destruct (forallb (holds outside float_is finite u) (bit_array_to_tests segs)) eqn:H; [|discriminate].
        intros [= <-]. rewrite (tests_values_spec outside float_is finite u segs H). constructor. now apply tests_spec.
    - cbn [tree_of]. rewrite tmatch_tuple. inversion TV as [| | | | |vs ? TV'| | | | |]; subst. pose proof (all_spec ts ps (SUBS ps ts IH F) vs TV') as A. split.
      + intros K. inversion K; subst. now apply A.
      + intros K. constructor. now apply A.
    - rewrite app_nil_r in IH. pose proof (SAME ps t IH F) as FS. inversion TV as [| | | |vs ? TV'| | | | | |]; subst.
      rewrite <- (list_spec t ps None (fun vs bs => vs = [] /\ bs = []) FS); [|clear; intros vs' bs'; cbn; destruct vs'; split; intros H; try discriminate; try (destruct H; discriminate); [now destruct H as [_ ->]|injection H as <-; auto]|assumption]. split.
      + intros K. inversion K; subst. exists vs, [], bs, []. rewrite !app_nil_r. auto.
      + intros (a & b & x & y & -> & -> & M & -> & ->). rewrite !app_nil_r. now constructor.
    - apply Forall_app in IH. destruct IH as [IH _]. pose proof (SAME ps t IH F) as FS. inversion TV as [| | | |vs ? TV'| | | | | |]; subst.
      rewrite <- (list_spec t ps (Some TPDiscard) (fun vs bs => bs = []) FS); [|clear; intros vs' bs'; cbn; split; [now intros ->|now intros [= <-]]|assumption]. split.
      + intros K. inversion K as [| | | | | | | | | |? ? a b x y M1 M2|]; subst. inversion M2; subst. exists a, b, x, []. auto.
      + intros (a & b & x & y & -> & -> & M & ->). constructor; [assumption|constructor].
    - apply Forall_app in IH. destruct IH as [IH _]. pose proof (SAME ps t IH F) as FS. inversion TV as [| | | |vs ? TV'| | | | | |]; subst.
      rewrite <- (list_spec t ps (Some (TPVariable n)) (fun vs bs => bs = [(n, VList vs)]) FS); [|clear; intros vs' bs'; cbn; split; [now intros ->|now intros [= <-]]|assumption]. split.
      + intros K. inversion K as [| | | | | | | | | |? ? a b x y M1 M2|]; subst. inversion M2; subst. exists a, b, x, [(n, VList b)]. auto.
      + intros (a & b & x & y & -> & -> & M & ->). constructor; [assumption|constructor].
    - cbn [tree_of]. rewrite tmatch_variant.
      inversion TV as [| | | | | |? ? ? ? tv' i' k' vs G' N' J' TV'|? ? ? ? tv' x G' E'| | |]; subst v.
      + assert (tv' = tv) as -> by congruence. destruct (Nat.eq_dec i i') as [<-|NE].
        * assert (k' = k) as -> by congruence. pose proof (all_spec _ ps (SUBS ps _ IH F) vs TV') as A. split.
          -- intros K. inversion K; subst. now apply A.
          -- intros K. constructor. now apply A.
        * split; [|discriminate]. intros K. inversion K. congruence.
      + split; [|discriminate]. intros K. inversion K.
  Qed.

  Lemma patterns_spec ts ps vs bs : Forall2 (pattern_type env) ts ps -> Forall2 (has_type env) vs ts ->
    (patterns_match ps vs bs <-> tmatches (map tree_of ps) vs = Some bs).
  Proof.
    intros F TV. apply (all_spec ts); [|assumption]. clear TV. induction F; constructor; auto. now apply pattern_spec.
  Qed.
End SourceMatch.

(** ** The trees satisfy the invariants *)
Section SourceStatic.
  Context (env : environment)
          (outside : text -> Z)
          (float_is : text -> endianness -> list bool -> bool)
          (finite : endianness -> list bool -> bool).
  Notation okt := (okt env outside float_is finite).
  Notation pattern_type := (pattern_type env).

  Lemma plain_value_of s r : plain_segment s -> plain_value (segment_matched_value s (value s) r).
  Proof.
    intros P n w E. destruct (value s) as [z|t|t|m|m|m p] eqn:V; try discriminate. cbn in E. injection E as <- <-.
    destruct (P m p V) as [k ->]. now exists k.
  Qed.
  Lemma loop_plain segs : Forall plain_segment segs -> forall prev vs, Forall plain_test (segments_loop segs prev vs).
  Proof.
    induction 1 as [|s segs P F IH]; intros prev vs; cbn [segments_loop]; [constructor|].
    apply Forall_app. split; [|apply IH]. unfold segment_tests. repeat (apply Forall_app; split).
    - destruct (can_be_negative _); repeat constructor.
    - destruct (segment_size s vs); repeat constructor.
    - destruct (match type_ s with TFloat => _ | _ => _ end); repeat constructor.
    - constructor; [|constructor]. now apply plain_value_of.
  Qed.
  Lemma tests_plain segs : Forall plain_segment segs -> Forall plain_test (bit_array_to_tests segs).
  Proof. intros F. destruct segs as [|s segs]; [repeat constructor|]. now apply loop_plain. Qed.
  Lemma tests_good segs : valid_segments segs -> Forall plain_segment segs -> fitting_segments segs ->
    sized_segments outside segs -> Forall (good_test outside) (bit_array_to_tests segs).
  Proof.
    intros V P F S. pose proof (tests_wf segs V) as W. pose proof (tests_plain segs P) as PL.
    rewrite Forall_forall in *. intros t I. split; [auto|]. split; [intros b; now apply S|]. split; [auto|].
    intros v r ->. now apply (F v r).
  Qed.

  Lemma source_okt p : forall ty nested, pattern_type ty p -> simple outside nested p -> okt false ty (tree_of p).
  Proof.
    induction p as [p IH] using source_ind'. intros ty nested TY SI.
    assert (forall ps ts, Forall (fun p => forall ty nested, pattern_type ty p -> simple outside nested p -> okt false ty (tree_of p)) ps ->
      Forall2 pattern_type ts ps -> Forall (simple outside true) ps -> Forall2 (okt false) ts (map tree_of ps)) as SUBS.
    { intros ps ts A F. induction F; intros B; [constructor|]. inversion A; inversion B; subst. constructor; eauto. }
    assert (forall t tail ps, okt false (CList t) (tree_of (TPList [] tail)) ->
      Forall (fun p => forall ty nested, pattern_type ty p -> simple outside nested p -> okt false ty (tree_of p)) ps ->
      Forall (pattern_type t) ps -> Forall (simple outside true) ps -> okt false (CList t) (tree_of (TPList ps tail))) as LIST.
    { intros t tail ps OT A F. induction F; intros B; [exact OT|]. inversion A; inversion B; subst. rewrite tree_of_cons. constructor; eauto. }
    destruct TY as [t|t n|t n p TY|z|f|s m L|s m l r L|segs V|ts ps F|t ps F|t ps F|t ps n F|m n args inferred tv i k used name module ps G O N J F];
      cbn [subsources] in IH.
    - constructor.
    - constructor.
    - cbn. inversion IH; inversion SI; subst. constructor; eauto.
    - constructor.
    - constructor.
    - cbn. inversion SI; subst. now constructor.
    - cbn. inversion SI; subst. constructor; [assumption|]. destruct r; [right; eauto|now left].
    - cbn. inversion SI as [| | | | | | |? ? P FI S R| | |]; subst. constructor; [now apply tests_good|].
      intros _ b. now apply tests_guarded.
    - cbn. inversion SI; subst. constructor. now apply SUBS.
    - inversion SI; subst. rewrite app_nil_r in IH. apply LIST; try assumption. constructor.
    - inversion SI; subst. apply Forall_app in IH. destruct IH as [IH _]. apply LIST; try assumption. constructor.
    - inversion SI; subst. apply Forall_app in IH. destruct IH as [IH _]. apply LIST; try assumption. constructor.
    - cbn. inversion SI; subst.
      set (ks := map (specialise_constructor (combine (tv_parameters tv) args)) (tv_variants tv)).
      apply (ok_variant env outside float_is finite false m n args inferred ks i (specialise_constructor (combine (tv_parameters tv) args) k)).
      + cbn. rewrite G. unfold specialise_constructors. subst ks. destruct O as [-> | ->]; cbn; [reflexivity|].
        assert (text_eqb (current_module env) (current_module env) = true) as -> by now apply text_eqb_iff.
        cbn. now rewrite andb_false_r.
      + now apply map_nth_error.
      + intros j E. unfold ks. rewrite map_length. now apply J.
      + rewrite specialise_fields. now apply SUBS.
  Qed.

  Lemma source_irref p : irrefutable p -> irref (tree_of p) = true.
  Proof.
    induction p as [p IH] using source_ind'. intros I. destruct I as [|n|n p I|ps F|p I]; cbn [subsources app] in IH; cbn.
    - reflexivity.
    - reflexivity.
    - inversion IH; subst. auto.
    - rewrite forallb_forall. intros t IN. apply in_map_iff in IN. destruct IN as (p & <- & IN).
      rewrite Forall_forall in *. auto.
    - inversion IH; subst. auto.
  Qed.

  Lemma source_tsize p : tsize (tree_of p) <= source_size p.
  Proof.
    clear. induction p as [p IH] using source_ind'.
    assert (forall ps, Forall (fun p => tsize (tree_of p) <= source_size p) ps -> list_sum (map tsize (map tree_of ps)) <= list_sum (map source_size ps)) as SUBS.
    { induction 1 as [|q qs L F IHF]; unfold list_sum in *; cbn [map fold_right] in *; lia. }
    destruct p; cbn [subsources] in IH; cbn [tree_of tsize source_size]; try lia.
    - inversion IH; subst. cbn. lia.
    - apply SUBS in IH. lia.
    - apply Forall_app in IH. destruct IH as [IH1 IH2].
      assert (tsize (tree_of (TPList [] tail)) <= S match tail with Some p => source_size p | None => 0 end) as B.
      { destruct tail as [q|]; cbn; [|lia]. inversion IH2; subst. lia. }
      induction IH1 as [|q qs L F IHF]; [cbn; cbn in B; exact B|]. unfold list_sum in *. cbn [map fold_right tsize] in *. lia.
    - apply SUBS in IH. lia.
  Qed.

  (** ** Clashes *)
  Lemma typed_string_of ty p s : pattern_type ty p -> tree_of p = T (AString s) -> p = TPString s.
  Proof. intros H E. destruct H; try discriminate; try (destruct ps; discriminate); cbn in E; congruence. Qed.
  Lemma typed_prefix_of ty p s n t : pattern_type ty p -> tree_of p = T (AStringPrefix s n t) -> exists r, p = TPStringPrefix s n r.
  Proof. intros H E. destruct H; try discriminate; try (destruct ps; discriminate); cbn in E. injection E as -> -> _. eauto. Qed.
  Lemma typed_assign_of ty p n t : pattern_type ty p -> tree_of p = T (AAssign n t) -> exists q, p = TPAssign n q /\ t = tree_of q /\ pattern_type ty q.
  Proof. intros H E. destruct H; try discriminate; try (destruct ps; discriminate); cbn in E. injection E as -> <-. eauto. Qed.
  Lemma typed_tuple_of ty p ts : pattern_type ty p -> tree_of p = T (ATuple ts) -> exists ps tys, p = TPTuple ps /\ ts = map tree_of ps /\ Forall2 pattern_type tys ps.
  Proof. intros H E. destruct H; try discriminate; try (destruct ps; discriminate); cbn in E. injection E as <-. eauto. Qed.
  Lemma typed_variant_of ty p i u n m ts : pattern_type ty p -> tree_of p = T (AVariant i u n m ts) ->
    exists ps tys, p = TPConstructor i u n m ps /\ ts = map tree_of ps /\ Forall2 pattern_type tys ps.
  Proof. intros H E. destruct H; try discriminate; try (destruct ps; discriminate); cbn in E. injection E as -> -> -> -> <-. eauto 10. Qed.
  Lemma typed_cons_of ty p a r : pattern_type ty p -> tree_of p = T (ANonEmptyList a r) ->
    exists t q ps tail, p = TPList (q :: ps) tail /\ a = tree_of q /\ r = tree_of (TPList ps tail) /\
      ty = CList t /\ pattern_type t q /\ pattern_type ty (TPList ps tail).
  Proof.
    intros H E. destruct H; try discriminate; destruct ps as [|q ps]; try discriminate; rewrite tree_of_cons in E; injection E as <- <-;
      inversion H; subst; exists t, q, ps; eexists; repeat split; try eassumption; now constructor.
  Qed.
  Lemma Forall2_split {A B} (R : A -> B -> Prop) l m1 m m2 : Forall2 R l (m1 ++ m :: m2) -> exists x, R x m.
  Proof.
    intros F. apply Forall2_app_inv_r in F. destruct F as (l1 & l2 & F1 & F2 & ->). inversion F2; subst. eauto.
  Qed.
  Definition source_clash (k : bool) : source -> source -> Prop := if k then prefix_clash else string_clash.
  Lemma clash_not_list k ps t q : ~ source_clash k (TPList ps t) q.
  Proof. destruct k; intros H; inversion H. Qed.

  Lemma tclash_source k t u sibs : tclash k t u sibs -> forall p q ty ty', t = tree_of p -> u = tree_of q ->
    pattern_type ty p -> pattern_type ty' q -> exists sibs' p' q', meets p q sibs' p' q' /\ source_clash k p' q' /\
      (Forall irrefutable sibs' -> Forall (fun t => irref t = true) sibs).
  Proof.
    assert (forall ps, Forall irrefutable ps -> Forall (fun t => irref t = true) (map tree_of ps)) as IRR.
    { intros ps F. apply Forall_map. eapply Forall_impl; [|exact F]. apply source_irref. }
    induction 1 as [s s' name r ST|s n1 r1 s' n2 r2 ST NE|k n t u sibs C IH|k n t u sibs C IH|k ps1 t ps2 qs1 u qs2 sibs L C IH|k i us nm md us' nm' md' ps1 t ps2 qs1 u qs2 sibs L C IH|k t r u s sibs C IH|k t r u s sibs C IH];
      intros p q ty ty' E1 E2 T1 T2; symmetry in E1, E2.
    - apply (typed_string_of ty) in E1; [|assumption]. subst p. destruct (typed_prefix_of ty' q _ _ _ T2 E2) as [r' ->].
      exists [], (TPString s), (TPStringPrefix s' name r'). split; [constructor|]. split; [now constructor|constructor].
    - destruct (typed_prefix_of ty p _ _ _ T1 E1) as [r' ->]. destruct (typed_prefix_of ty' q _ _ _ T2 E2) as [r'' ->].
      eexists [], _, _. split; [constructor|]. split; [now constructor|constructor].
    - destruct (typed_assign_of ty p _ _ T1 E1) as (p' & -> & -> & T1').
      destruct (IH p' q ty ty' eq_refl (eq_sym E2) T1' T2) as (sibs' & x & y & M & S & I). exists sibs', x, y. split; [now constructor|]. auto.
    - destruct (typed_assign_of ty' q _ _ T2 E2) as (q' & -> & -> & T2').
      destruct (IH p q' ty ty' (eq_sym E1) eq_refl T1 T2') as (sibs' & x & y & M & S & I). exists sibs', x, y. split; [now constructor|]. auto.
    - destruct (typed_tuple_of ty p _ T1 E1) as (ps & tys & -> & EP & F1). destruct (typed_tuple_of ty' q _ T2 E2) as (qs & tys' & -> & EQ & F2).
      symmetry in EP, EQ. apply map_eq_app in EP, EQ. destruct EP as (ps1' & x & -> & <- & EX), EQ as (qs1' & y & -> & <- & EY).
      apply map_eq_cons in EX, EY. destruct EX as (p & ps2' & -> & <- & <-), EY as (q & qs2' & -> & <- & <-).
      destruct (Forall2_split _ _ _ _ _ F1) as [tp TP]. destruct (Forall2_split _ _ _ _ _ F2) as [tq TQ].
      rewrite !map_length in L.
      destruct (IH p q tp tq eq_refl eq_refl TP TQ) as (sibs' & x & y & M & S & I).
      exists (ps1' ++ ps2' ++ sibs'), x, y. split; [now constructor|]. split; [assumption|]. rewrite !Forall_app. intros (A & B & D). auto.
    - destruct (typed_variant_of ty p _ _ _ _ _ T1 E1) as (ps & tys & -> & EP & F1). destruct (typed_variant_of ty' q _ _ _ _ _ T2 E2) as (qs & tys' & -> & EQ & F2).
      symmetry in EP, EQ. apply map_eq_app in EP, EQ. destruct EP as (ps1' & x & -> & <- & EX), EQ as (qs1' & y & -> & <- & EY).
      apply map_eq_cons in EX, EY. destruct EX as (p & ps2' & -> & <- & <-), EY as (q & qs2' & -> & <- & <-).
      destruct (Forall2_split _ _ _ _ _ F1) as [tp TP]. destruct (Forall2_split _ _ _ _ _ F2) as [tq TQ].
      rewrite !map_length in L.
      destruct (IH p q tp tq eq_refl eq_refl TP TQ) as (sibs' & x & y & M & S & I).
      exists (ps1' ++ ps2' ++ sibs'), x, y. split; [now constructor|]. split; [assumption|]. rewrite !Forall_app. intros (A & B & D). auto.
    - destruct (typed_cons_of ty p _ _ T1 E1) as (et & p' & ps & tl & -> & -> & -> & -> & TP & TL).
      destruct (typed_cons_of ty' q _ _ T2 E2) as (et' & q' & qs & tl' & -> & -> & -> & -> & TQ & TL').
      destruct (IH p' q' et et' eq_refl eq_refl TP TQ) as (sibs' & x & y & M & S & I).
      exists ([] ++ TPList ps tl :: sibs'), x, y. split; [exact (meets_list tl tl' [] p' ps [] q' qs sibs' x y eq_refl M)|]. split; [assumption|].
      cbn. intros F. inversion F; subst. constructor; [now apply (source_irref (TPList ps tl))|auto].
    - destruct (typed_cons_of ty p _ _ T1 E1) as (et & p' & ps & tl & -> & -> & -> & -> & TP & TL).
      destruct (typed_cons_of ty' q _ _ T2 E2) as (et' & q' & qs & tl' & -> & -> & -> & -> & TQ & TL').
      destruct (IH (TPList ps tl) (TPList qs tl') _ _ eq_refl eq_refl TL TL') as (sibs' & x & y & M & S & I).
      inversion M as [| | | | |? ? ps1 p0 ps2 qs1 q0 qs2 sibs0 x0 y0 LE M0]; subst; [exfalso; eapply clash_not_list; eassumption|].
      exists ((p' :: ps1) ++ TPList ps2 tl :: sibs0), x, y. split.
      { apply (meets_list tl tl' (p' :: ps1) p0 ps2 (q' :: qs1) q0 qs2); [cbn; now rewrite LE|assumption]. }
      split; [assumption|]. cbn. intros F. inversion F; subst. constructor; [now apply source_irref|auto].
  Qed.
End SourceStatic.
