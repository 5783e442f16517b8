(** The suggested patterns of a whole [case]. *)
From Coq Require Import String ZArith NArith Bool List Lia Permutation.
From Verif Require Import Text Strings StringsSpec Bits BitsSpec BitsProofs Case CaseSpec CaseText CasePure CaseSem CaseStatic CaseMove CaseResidual CaseDeriv CaseNice CaseSplit CaseKinds CaseCompile CaseTop CasePaths CaseFalls CaseWays MissingPatterns MissingPatternsSpec MissingPatternsShown MissingPatternsProofs P_Case.
Import ListNotations.
Local Open Scope nat_scope.
Local Open Scope list_scope.

Section Walk.
  Context (env : environment) (ns : names) (is_internal : text -> text -> bool).
  Context (outside : text -> Z)
          (float_is : text -> endianness -> list bool -> bool)
          (finite : endianness -> list bool -> bool).
  Context (subjects : list cvar).
  Notation wfd := (wfd env outside float_is finite).
  Notation to_term := (to_term env).
  Notation add := (add_missing_patterns env ns is_internal subjects).

  Definition row_text (es : list (cvar * check)) (x : text) : Prop :=
    exists ts, Forall2 to_term es ts /\ print_terms env ns is_internal ts (mapping_from 0 ts []) subjects = Done x.

  Lemma ok_term fl n n' v c : check_ok env fl n n' v c -> exists t, check_to_term env v c = Done t.
  Proof.
    intros CK. destruct c as [z|z|s|s r|k vs|tst|mt i ls vs|a r|]; try (eexists; reflexivity).
    pose proof (ok_tcheck env _ _ _ _ _ CK ltac:(intros [t ?]; discriminate)) as TC.
    assert (exists m nm args inferred, var_type v = CNamed m nm args inferred) as (m & nm & args & inferred & E) by (inversion TC; subst; eauto).
    destruct (variant_check env _ _ _ _ _ _ _ _ _ _ _ _ CK E) as (tv & k & G & N & _). cbn. rewrite E, G, N. eauto.
  Qed.
  Lemma insert_spec x l : (NoDup l -> NoDup (insert x l)) /\ forall y, In y (insert x l) <-> In y l \/ y = x.
  Proof.
    unfold insert. destruct (existsb (text_eqb x) l) eqn:E.
    - apply existsb_exists in E as (z & I & E). apply text_eqb_iff in E. subst z. split; [auto|]. intros y. split; [auto|intros [J| ->]; auto].
    - assert (~ In x l) as NI.
      { intros I. assert (existsb (text_eqb x) l = true) by (apply existsb_exists; exists x; split; [assumption|now apply text_eqb_iff]). congruence. }
      split.
      + intros ND. apply (NoDup_Add (a := x) (l := l)); [|auto]. rewrite <- (app_nil_r l) at 1. apply Add_app.
      + intros y. rewrite in_app_iff. cbn. intuition congruence.
  Qed.

  (** A loop over checks, each followed by a tree. *)
  Fixpoint walk_checks (v : cvar) (ts : list term) (l : list (check * decision)) (missing : list text) : out (list text) :=
    match l with
    | [] => Done missing
    | (c, d) :: l =>
        let* t := check_to_term env v c in
        let* missing := add d (ts ++ [t]) missing in
        walk_checks v ts l missing
    end.
  Lemma add_switch v cs fb fc ts missing : add (Switch v cs fb fc) ts missing =
    let* missing := walk_checks v ts cs missing in
    match fc with
    | InfiniteCatchAll => add fb ts missing
    | _ => walk_checks v ts (map (fun c => (c, fb)) (fallback_checks fc)) missing
    end.
  Proof.
    cbn [add_missing_patterns].
    assert (forall cs missing, (fix each (choices : list (check * decision)) (missing : list text) {struct choices} : out (list text) :=
             match choices with
             | [] => Done missing
             | (c, d) :: choices =>
                 let* t := check_to_term env v c in
                 let* missing := add d (ts ++ [t]) missing in
                 each choices missing
             end) cs missing = walk_checks v ts cs missing) as A.
    { induction cs0 as [|[c d] cs0 IH]; intros m0; cbn; [reflexivity|]. destruct (check_to_term env v c); cbn; [|reflexivity..]. destruct (add d (ts ++ [a]) m0); cbn; [apply IH|reflexivity..]. }
    rewrite A. destruct (walk_checks v ts cs missing) as [m| |]; cbn [bind]; [|reflexivity..]. destruct fc as [|c|ign]; [reflexivity| |].
    - cbn. destruct (check_to_term env v c); cbn; [|reflexivity..]. now destruct (add fb (ts ++ [a]) m).
    - cbn [fallback_checks]. revert m. induction ign as [|c ign IH]; intros m; cbn; [reflexivity|]. destruct (check_to_term env v c); cbn; [|reflexivity..]. destruct (add fb (ts ++ [a]) m); cbn; [apply IH|reflexivity..].
  Qed.

  Definition walked (pre : list (cvar * check)) (d : decision) : Prop := forall ts missing, Forall2 to_term pre ts -> (forall es, path d es -> exists x, row_text (pre ++ es) x) ->
    exists missing', add d ts missing = Done missing' /\ (NoDup missing -> NoDup missing') /\
      forall x, In x missing' <-> In x missing \/ exists es, path d es /\ row_text (pre ++ es) x.

  Lemma walk_checks_spec v pre ts l : Forall2 to_term pre ts ->
    (forall c d, In (c, d) l -> (exists t, check_to_term env v c = Done t) /\ walked (pre ++ [(v, c)]) d /\ (forall es, path d es -> exists x, row_text (pre ++ (v, c) :: es) x)) ->
    forall missing, exists missing', walk_checks v ts l missing = Done missing' /\ (NoDup missing -> NoDup missing') /\
      forall x, In x missing' <-> In x missing \/ exists c d es, In (c, d) l /\ path d es /\ row_text (pre ++ (v, c) :: es) x.
  Proof.
    intros FT. induction l as [|[c d] l IH]; intros H missing; cbn [walk_checks].
    - exists missing. split; [reflexivity|]. split; [auto|]. intros x. split; [auto|]. intros [I|(c & d & es & [] & _)]. assumption.
    - destruct (H c d (or_introl eq_refl)) as ((t & CT) & W & RT). rewrite CT. cbn [bind].
      destruct (W (ts ++ [t]) missing) as (m1 & -> & N1 & S1).
      { apply Forall2_app; [assumption|]. constructor; [|constructor]. exact CT. }
      { intros es P. rewrite <- app_assoc. now apply RT. }
      cbn [bind]. destruct (IH (fun c d I => H c d (or_intror I)) m1) as (m2 & -> & N2 & S2). exists m2. split; [reflexivity|]. split; [auto|].
      intros x. rewrite S2, S1. split.
      + intros [[I|(es & P & R)]|(c' & d' & es & I & R)]; [now left|right|right].
        * exists c, d, es. rewrite <- app_assoc in R. split; [now left|auto].
        * exists c', d', es. split; [now right|assumption].
      + intros [I|(c' & d' & es & [[= -> ->]|I] & P & R)]; [auto| |].
        * left. right. exists es. rewrite <- app_assoc. auto.
        * right. exists c', d', es. auto.
  Qed.

  Lemma walk fl n L d : wfd fl n L d -> forall pre, walked pre d.
  Proof.
    induction 1 as [n L b|n L|n L g b d W IH|n n' L v cs fb fc ND BL VL LE NK CK INF FIN WC IHC WF IHF]; intros pre ts missing FT RT.
    - exists missing. split; [reflexivity|]. split; [auto|]. intros x. split; [auto|]. intros [I|(es & P & _)]; [assumption|inversion P].
    - destruct (RT [] path_fail) as (x & ts' & F & PT). rewrite app_nil_r in F.
      assert (ts' = ts) as ->.
      { clear - F FT. revert ts' F. induction FT as [|e t es ts H FT IH]; intros ts' F; inversion F; subst; [reflexivity|]. f_equal; [|auto]. unfold MissingPatternsProofs.to_term in *. congruence. }
      cbn [add_missing_patterns]. rewrite PT. cbn [bind]. destruct (insert_spec x missing) as [N S]. exists (insert x missing). split; [reflexivity|]. split; [assumption|].
      intros y. rewrite S. split; (intros [I|I]; [now left|right]).
      + subst y. exists []. split; [constructor|]. rewrite app_nil_r. exists ts. auto.
      + destruct I as (es & P & ts2 & F2 & PT2). inversion P; subst. rewrite app_nil_r in F2.
        assert (ts2 = ts) as ->.
        { clear - F2 FT. revert ts2 F2. induction FT as [|e t es ts H FT IH]; intros ts' F; inversion F; subst; [reflexivity|]. f_equal; [|auto]. unfold MissingPatternsProofs.to_term in *. congruence. }
        congruence.
    - destruct (IH pre ts missing FT) as (m & E & N & S); [intros es P; apply RT; now constructor|]. exists m. split; [exact E|]. split; [assumption|].
      intros x. rewrite S. split; (intros [I|(es & P & R)]; [now left|right]).
      + exists es. split; [now constructor|assumption].
      + inversion P; subst. eauto.
    - rewrite add_switch. rewrite Forall_forall in CK.
      destruct (walk_checks_spec v pre ts cs FT) with (missing := missing) as (m1 & -> & N1 & S1).
      { intros c d I. assert (In c (map fst cs ++ fallback_checks fc)) as IC by (apply in_or_app; left; apply in_map_iff; exists (c, d); auto).
        split; [eapply ok_term; eauto|]. split; [now apply (IHC c d)|]. intros es P. apply RT. econstructor; eassumption. }
      cbn [bind]. destruct fc as [|c|ign].
      + destruct (IHF pre ts m1 FT) as (m2 & -> & N2 & S2); [intros es P; apply RT; now constructor|]. exists m2. split; [reflexivity|]. split; [auto|].
        intros x. rewrite S2, S1. split.
        * intros [[I|(c & d & es & I & P & R)]|(es & P & R)]; [now left|right|right].
          -- exists ((v, c) :: es). split; [econstructor; eassumption|assumption].
          -- exists es. split; [now constructor|assumption].
        * intros [I|(es & P & R)]; [auto|]. inversion P; subst; [left; right; eauto 7|right; eauto|destruct H4].
      + destruct (walk_checks_spec v pre ts (map (fun c => (c, fb)) (fallback_checks (FallbackRuntimeCheck c))) FT) with (missing := m1) as (m2 & -> & N2 & S2).
        { intros c' d I. apply in_map_iff in I as (c0 & [= <- <-] & I). split; [eapply ok_term; apply CK, in_or_app; right; eassumption|]. split; [now apply IHF|]. intros es P. apply RT. now apply path_fallback. }
        exists m2. split; [reflexivity|]. split; [auto|]. intros x. rewrite S2, S1. split.
        * intros [[I|(c' & d & es & I & P & R)]|(c' & d & es & I & P & R)]; [now left|right|right].
          -- exists ((v, c') :: es). split; [econstructor; eassumption|assumption].
          -- apply in_map_iff in I as (c0 & [= <- <-] & I). exists ((v, c0) :: es). split; [now apply path_fallback|assumption].
        * intros [I|(es & P & R)]; [auto|]. inversion P; subst; [left; right; eauto 7|right].
          exists c0, fb, es0. split; [|auto]. apply in_map_iff. eauto.
      + destruct (walk_checks_spec v pre ts (map (fun c => (c, fb)) (fallback_checks (CatchAll ign))) FT) with (missing := m1) as (m2 & -> & N2 & S2).
        { intros c' d I. apply in_map_iff in I as (c0 & [= <- <-] & I). split; [eapply ok_term; apply CK, in_or_app; right; eassumption|]. split; [now apply IHF|]. intros es P. apply RT. now apply path_fallback. }
        exists m2. split; [reflexivity|]. split; [auto|]. intros x. rewrite S2, S1. split.
        * intros [[I|(c' & d & es & I & P & R)]|(c' & d & es & I & P & R)]; [now left|right|right].
          -- exists ((v, c') :: es). split; [econstructor; eassumption|assumption].
          -- apply in_map_iff in I as (c0 & [= <- <-] & I). exists ((v, c0) :: es). split; [now apply path_fallback|assumption].
        * intros [I|(es & P & R)]; [auto|]. inversion P; subst; [left; right; eauto 7|right].
          exists c, fb, es0. split; [|auto]. apply in_map_iff. eauto.
  Qed.
End Walk.

(** ** A whole case *)
Lemma within_all t : within (Flags true true) t.
Proof.
  induction t as [p IH] using tree_ind'. destruct p; cbn in IH; try (constructor; reflexivity || exact IH); try (constructor; fail).
  - inversion IH; subst. now constructor.
  - inversion IH as [|? ? H1 H]; subst. inversion H; subst. now constructor.
Qed.
Lemma within_source lit p : made_of lit p -> within (Flags lit false) (tree_of p).
Proof.
  revert p. fix IH 2. intros p M.
  assert (forall ps, Forall (made_of lit) ps -> Forall (within (Flags lit false)) (map tree_of ps)) as ALL.
  { fix G 2. intros ps F. destruct F as [|q ps H F]; [constructor|]. constructor; [exact (IH q H)|exact (G ps F)]. }
  assert (forall ps t, Forall (made_of lit) ps -> within (Flags lit false) t -> within (Flags lit false) (fold_right (fun p t => T (ANonEmptyList p t)) t (map tree_of ps))) as LIST.
  { fix G 3. intros ps t F W. destruct F as [|q ps H F]; [exact W|]. cbn. constructor; [exact (IH q H)|exact (G ps t F W)]. }
  destruct M; cbn [tree_of]; try (constructor; assumption || (now apply ALL) || (now apply IH)).
  - apply LIST; [assumption|constructor].
  - apply LIST; [assumption|now apply IH].
Qed.

Section Top.
  Context (env : environment) (ns : names) (is_internal : text -> text -> bool).
  Context (outside : text -> Z)
          (float_is : text -> endianness -> list bool -> bool)
          (finite : endianness -> list bool -> bool).
  Context (subjects : list ctype) (cls : list clause).
  Context (WT : well_typed env subjects cls) (SI : simple_case outside cls) (NE : rows cls <> []).
  Notation vs := (subject_variables_from 0 subjects).
  Notation float_value := (fun _ => VOther 0).
  Notation run := (run outside float_is finite float_value none).

  Lemma subject_var w : In w vs -> exists j t, nth_error subjects j = Some t /\ w = Var j t.
  Proof.
    assert (forall ts k, In w (subject_variables_from k ts) -> exists j t, nth_error ts j = Some t /\ w = Var (k + j) t) as G.
    { induction ts as [|t ts IH]; intros k I; [destruct I|]. cbn in I. destruct I as [<-|I].
      - exists 0, t. now rewrite Nat.add_0_r.
      - destruct (IH (S k) I) as (j & u & N & ->). exists (S j), u. split; [assumption|]. f_equal. lia. }
    apply (G subjects 0).
  Qed.
  Lemma subject_types : forall ts k, map var_type (subject_variables_from k ts) = ts.
  Proof. induction ts as [|t ts IH]; intros k; cbn; [reflexivity|]. now rewrite IH. Qed.
  Lemma subjects_nodup : NoDup (map id vs).
  Proof. rewrite subject_ids. apply seq_NoDup. Qed.
  Lemma subjects_below w : In w vs -> id w < length subjects.
  Proof. intros I. destruct (subject_var w I) as (j & t & N & ->). cbn. apply nth_error_Some. congruence. Qed.
  Lemma subjects_values values : Forall2 (has_type env) values subjects ->
    typed env (subjects_store values) vs /\ map (fun w => subjects_store values (id w)) vs = values.
  Proof.
    intros F. split.
    - intros w I. destruct (subject_var w I) as (j & t & N & ->). cbn. destruct (Forall2_nth _ _ _ F j t N) as (y & NY & H).
      unfold subjects_store. now rewrite (nth_error_nth _ _ _ NY).
    - apply nth_error_ext. intros j. rewrite nth_error_map.
      assert (forall ts k j, nth_error (subject_variables_from k ts) j = option_map (Var (k + j)) (nth_error ts j)) as NV.
      { clear. induction ts as [|t ts IH]; intros k [|j]; cbn; try reflexivity; [now rewrite Nat.add_0_r|]. rewrite IH. f_equal. f_equal. lia. }
      rewrite NV. cbn [Nat.add]. destruct (nth_error subjects j) as [t|] eqn:N; cbn.
      + destruct (Forall2_nth _ _ _ F j t N) as (y & NY & H). rewrite NY. unfold subjects_store. now rewrite (nth_error_nth _ _ _ NY).
      + symmetry. apply nth_error_None. apply nth_error_None in N. now rewrite (Forall2_len _ _ _ F).
  Qed.
  Lemma store_values st : typed env st vs -> exists values, Forall2 (has_type env) values subjects /\ forall w, In w vs -> st (id w) = subjects_store values (id w).
  Proof.
    intros TY. exists (map (fun w => st (id w)) vs). split.
    - rewrite <- (subject_types subjects 0) at 2. clear - TY. induction vs as [|w l IH]; constructor; [apply TY; now left|]. apply IH. intros u I. apply TY. now right.
    - intros w I. unfold subjects_store. destruct (In_nth_error _ _ I) as (j & N).
      assert (id w = j) as EJ.
      { pose proof (subject_ids subjects 0) as E. apply (f_equal (fun l => nth_error l j)) in E. rewrite nth_error_map, N in E. cbn in E.
        symmetry in E. apply nth_error_nth with (d := 0) in E. rewrite seq_nth in E; [cbn in E; congruence|].
        assert (j < length vs) by (apply nth_error_Some; congruence). now rewrite subject_variables_length in H. }
      rewrite EJ at 2. erewrite nth_error_nth; [reflexivity|]. now rewrite nth_error_map, N.
  Qed.

  Lemma rows_covered fl : (forall r, In r (rows cls) -> Forall (fun p => within fl (tree_of p)) (row_patterns r)) ->
    covers fl vs (map (tbranch vs) (rows cls)).
  Proof.
    intros H b v t IB IC. apply in_map_iff in IB as (r & <- & I). cbn in IC. split; [left; now apply in_combine_l in IC|].
    apply in_combine_r in IC. apply in_map_iff in IC as (p & <- & IP). specialize (H r I). rewrite Forall_forall in H. now apply H.
  Qed.

  (** What is known of a way. *)
  Lemma way_facts fl n L d es : wfd env outside float_is finite fl n L d -> NoDup (map id L) -> (forall w, In w L -> id w < n) -> path d es ->
    checked env es fl (way_vars L es) /\ NoDup (map id (way_vars L es)) /\ (forall v c, In (v, c) es -> In v (way_vars L es)) /\
    (forall v c w, In (v, c) es -> In w (check_vars c) -> id v < id w) /\ (exists ts, Forall2 (to_term env) es ts).
  Proof.
    intros W ND BL P. pose proof (path_way env outside float_is finite _ _ _ _ W es P) as WY.
    pose proof (way_vars_nodup env _ _ _ _ WY ND BL) as NV. pose proof (way_in env _ _ _ _ WY) as IV.
    split; [|split; [assumption|split; [assumption|split]]].
    - intros w c I L'. destruct (last_in _ _ _ L') as (v & IE & E). assert (v = w) as -> by (apply (same_id (way_vars L es)); eauto).
      destruct (way_low env _ _ _ _ WY w c IE) as (_ & _ & m & m' & _ & LW & CK). split; [exists m, m'; auto|].
      intros u IU. unfold way_vars. apply in_or_app. right. apply in_flat_map. exists (w, c). auto.
    - intros v c w IE IW. destruct (way_low env _ _ _ _ WY v c IE) as (_ & _ & m & m' & _ & LW & (_ & _ & BV & _)). specialize (BV w IW). lia.
    - assert (forall v c, In (v, c) es -> exists t, check_to_term env v c = Done t) as CT.
      { intros v c IE. destruct (way_low env _ _ _ _ WY v c IE) as (_ & _ & m & m' & _ & LW & CK). eapply ok_term; eauto. }
      clear - CT. induction es as [|[v c] es IH]; [exists []; constructor|]. destruct (CT v c (or_introl eq_refl)) as [t T]. destruct IH as [ts F]; [intros u k I; apply CT; now right|].
      exists (t :: ts). constructor; assumption.
  Qed.

  Lemma suggested fl : covers fl vs (map (tbranch vs) (rows cls)) ->
    exists d x texts, compile_case env subjects cls = Done (d, x) /\ missing_patterns env ns is_internal subjects d = Done texts /\
      NoDup texts /\ (missing x = true <-> texts <> []) /\ wfd env outside float_is finite fl (length subjects) vs d /\
      (forall values, Forall2 (has_type env) values subjects -> (unmatched outside float_is finite cls values <-> run d (subjects_store values) = None)) /\
      (forall t, In t texts -> exists es ps xs, path d es /\ t = commas xs /\ shown_all env ns is_internal es vs ps xs) /\
      (forall es, path d es -> exists ps xs, In (commas xs) texts /\ shown_all env ns is_internal es vs ps xs).
  Proof.
    intros CV. destruct (compile_case_pure env outside float_is finite float_value none none_perm subjects cls WT SI NE) as (OK & INV & WF & d & x & PC & CC & _).
    destruct (pcompile_traced env outside float_is finite float_value fl (case_fuel cls) _ (length subjects) vs _ (Context (length subjects) false [] [] []) INV (le_n _) WF subjects_nodup subjects_below CV)
      as (d' & x' & PC' & _ & W & MI). rewrite PC in PC'. injection PC' as <- <-.
    assert (forall es, path d es -> exists ps xs, row_text env ns is_internal vs es (commas xs) /\ shown_all env ns is_internal es vs ps xs) as SH.
    { intros es P. destruct (way_facts _ _ _ _ _ W subjects_nodup subjects_below P) as (CK & NV & IV & UP & ts & F).
      destruct (print_terms_shown env ns is_internal es ts (way_vars vs es) fl F CK NV IV UP vs) as (ps & xs & PT & SA); [intros w I; unfold way_vars; apply in_or_app; now left|].
      exists ps, xs. split; [exists ts; auto|assumption]. }
    destruct (walk env ns is_internal outside float_is finite vs fl _ _ _ W [] [] []) as (texts & AD & ND & IN); [constructor| |].
    { intros es P. destruct (SH es P) as (ps & xs & R & _). eauto. }
    cbn [app] in IN.
    assert (forall es xs t, row_text env ns is_internal vs es (commas xs) -> row_text env ns is_internal vs es t -> t = commas xs) as FUN.
    { intros es xs t (ts & F & E) (ts' & F' & E'). assert (ts' = ts) as ->; [|congruence].
      clear - F F'. revert ts' F'. induction F as [|e t es ts H FT IH]; intros ts' F; inversion F; subst; [reflexivity|]. f_equal; [|auto]. unfold to_term in *. congruence. }
    exists d, x, texts. split; [assumption|]. split; [exact AD|]. split; [apply ND; constructor|]. split; [|split; [assumption|split; [|split]]].
    - rewrite MI. cbn [missing]. split.
      + intros [H|(es & P)]; [discriminate|]. destruct (SH es P) as (ps & xs & R & _). intros ->. apply (proj2 (IN (commas xs))). right. eauto.
      + intros NEMP. right. destruct texts as [|t texts]; [congruence|]. destruct (proj1 (IN t) (or_introl eq_refl)) as [[]|(es & P & _)]. eauto.
    - intros values TV. destruct (compile_case_correct env outside float_is finite float_value none none_perm subjects cls WT SI NE) as (d' & x' & CC' & H).
      rewrite CC in CC'. injection CC' as <- <-. destruct (H values TV) as [H1 H2]. split.
      + intros U. apply H2. intros r bs I [MP G]. apply (U r bs I); [|assumption]. destruct (row_guard r) as [g|]; [|reflexivity]. discriminate G. discriminate.
      + intros RN r bs I G MP.
        destruct (rows_decide env outside float_is finite none subjects values (rows cls) OK TV) as [(before & r' & after & bs' & EQ & A & N)|N].
        * destruct (H1 r' bs') as (_ & bs2 & E & _); [now exists before, after|]. congruence.
        * apply (N r bs I). split; [assumption|]. congruence.
    - intros t I. destruct (proj1 (IN t) I) as [[]|(es & P & R)]. destruct (SH es P) as (ps & xs & R' & SA). exists es, ps, xs. split; [assumption|]. split; [eapply FUN; eassumption|assumption].
    - intros es P. destruct (SH es P) as (ps & xs & R & SA). exists ps, xs. split; [|assumption]. apply IN. right. eauto.
  Qed.

  Lemma shown_row es ps xs fl d : wfd env outside float_is finite fl (length subjects) vs d -> path d es -> shown_all env ns is_internal es vs ps xs ->
    written_row env ns is_internal subjects ps (commas xs).
  Proof.
    intros W P SA. destruct (way_facts _ _ _ _ _ W subjects_nodup subjects_below P) as (CK & NV & IV & UP & _).
    exists xs. split; [|reflexivity]. destruct (shown_written env ns is_internal es fl _ CK) as (_ & SW & _).
    rewrite <- (subject_types subjects 0) at 1. apply SW; [assumption|]. intros w I. unfold way_vars. apply in_or_app. now left.
  Qed.

  Lemma shown_row_matches es ps xs fl d st values : wfd env outside float_is finite fl (length subjects) vs d -> path d es -> shown_all env ns is_internal es vs ps xs ->
    Forall2 (has_type env) values subjects -> (forall w, In w vs -> st (id w) = subjects_store values (id w)) -> sat outside float_is finite st es ->
    exists bs, patterns_match outside float_is finite ps values bs.
  Proof.
    intros W P SA TV AG S. destruct (way_facts _ _ _ _ _ W subjects_nodup subjects_below P) as (CK & NV & IV & UP & _).
    destruct (subjects_values values TV) as [T0 EV].
    assert (typed env st vs) as TS by (intros w I; rewrite (AG w I); now apply T0).
    pose proof (path_way env outside float_is finite _ _ _ _ W es P) as WY.
    pose proof (way_typed env outside float_is finite fl _ _ es st WY TS S) as TY.
    destruct (shown_matches env ns is_internal es outside float_is finite fl _ st CK TY S NV IV) as (_ & SM & _).
    destruct (SM vs ps xs SA) as [bs M]; [intros w I; unfold way_vars; apply in_or_app; now left|]. exists bs.
    rewrite <- EV. replace (map (fun w => subjects_store values (id w)) vs) with (map (fun v => st (id v)) vs); [assumption|]. apply map_ext_in. exact AG.
  Qed.

  (** Every value that is not matched is described. *)
  Theorem suggested_cover : exists d x texts, compile_case env subjects cls = Done (d, x) /\ missing_patterns env ns is_internal subjects d = Done texts /\
    NoDup texts /\ (missing x = true <-> texts <> []) /\
    (forall t, In t texts -> exists ps, written_row env ns is_internal subjects ps t) /\
    forall values, Forall2 (has_type env) values subjects -> unmatched outside float_is finite cls values ->
      exists t ps bs, In t texts /\ written_row env ns is_internal subjects ps t /\ patterns_match outside float_is finite ps values bs.
  Proof.
    destruct (suggested (Flags true true)) as (d & x & texts & CC & MP & ND & MI & W & UN & T1 & T2).
    { apply rows_covered. intros r I. apply Forall_forall. intros p _. apply within_all. }
    exists d, x, texts. repeat (split; [assumption|]). split.
    - intros t I. destruct (T1 t I) as (es & ps & xs & P & -> & SA). exists ps. eapply shown_row; eassumption.
    - intros values TV U. apply UN in U; [|assumption]. destruct (subjects_values values TV) as [T0 _].
      destruct (falls_way env outside float_is finite float_value _ _ _ _ W _ T0 U) as (es & st & P & AG & S).
      destruct (T2 es P) as (ps & xs & I & SA). exists (commas xs), ps.
      destruct (shown_row_matches es ps xs _ _ st values W P SA TV) as [bs M]; [intros w IW; apply AG; now apply subjects_below|assumption|].
      exists bs. split; [assumption|]. split; [eapply shown_row; eassumption|assumption].
  Qed.

  (** With constructors, tuples and lists, what a suggested pattern describes is not matched. *)
  Theorem suggested_all : clauses_made_of false cls -> (forall m n, visible env is_internal m n) ->
    exists d x texts, compile_case env subjects cls = Done (d, x) /\ missing_patterns env ns is_internal subjects d = Done texts /\
    forall t, In t texts -> exists ps, written_row env ns is_internal subjects ps t /\
      forall values bs, Forall2 (has_type env) values subjects -> patterns_match outside float_is finite ps values bs -> unmatched outside float_is finite cls values.
  Proof.
    intros MO VIS. destruct (suggested (Flags false false)) as (d & x & texts & CC & MP & ND & MI & W & UN & T1 & T2).
    { apply rows_covered. intros r I. specialize (MO r I). eapply Forall_impl; [|exact MO]. intros p. apply within_source. }
    exists d, x, texts. split; [assumption|]. split; [assumption|]. intros t I. destruct (T1 t I) as (es & ps & xs & P & -> & SA). exists ps.
    split; [eapply shown_row; eassumption|]. intros values bs TV M. apply UN; [assumption|]. destruct (subjects_values values TV) as [T0 EV].
    apply (fits_falls env ns is_internal outside float_is finite float_value (Flags false false) _ _ _ eq_refl eq_refl VIS W [] es P _ T0).
    cbn [app]. pose proof (all_fit env ns is_internal es outside float_is finite _ _ _ SA _ _ M) as F. rewrite <- EV in F.
    clear - F. induction vs as [|v l IH]; [intros w []|]. cbn in F. inversion F; subst. intros w [<-|I]; auto.
  Qed.

  (** Without prefixes and bit arrays, each suggested pattern describes some value that is not
      matched, provided there are values. *)
  Theorem suggested_some : clauses_made_of true cls -> Forall (furnished env) subjects ->
    exists d x texts, compile_case env subjects cls = Done (d, x) /\ missing_patterns env ns is_internal subjects d = Done texts /\ (missing x = true -> texts <> []) /\
    forall t, In t texts -> exists ps values bs, written_row env ns is_internal subjects ps t /\ Forall2 (has_type env) values subjects /\
      patterns_match outside float_is finite ps values bs /\ unmatched outside float_is finite cls values.
  Proof.
    intros MO FU. destruct (suggested (Flags true false)) as (d & x & texts & CC & MP & ND & MI & W & UN & T1 & T2).
    { apply rows_covered. intros r I. specialize (MO r I). eapply Forall_impl; [|exact MO]. intros p. apply within_source. }
    exists d, x, texts. split; [assumption|]. split; [assumption|]. split; [apply MI|]. intros t I. destruct (T1 t I) as (es & ps & xs & P & -> & SA).
    assert (Forall (fun w => furnished env (var_type w)) vs) as FV by (apply (proj1 (Forall_map var_type (furnished env) vs)); now rewrite (subject_types subjects 0)).
    destruct (way_followed env outside float_is finite float_value (Flags true false) _ _ _ eq_refl W subjects_nodup es P FV) as (st & TS & S & RN).
    destruct (store_values st TS) as (values & TV & AG). destruct (shown_row_matches es ps xs _ _ st values W P SA TV AG S) as [bs M].
    exists ps, values, bs. split; [eapply shown_row; eassumption|]. split; [assumption|]. split; [assumption|]. apply UN; [assumption|].
    eapply run_ext; [exact W|exact TS|exact AG|exact RN].
  Qed.
End Top.
