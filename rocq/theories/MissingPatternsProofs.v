(** The printed patterns are those of the ways that end without a clause. *)
From Coq Require Import String ZArith NArith Bool List Lia Permutation.
From Verif Require Import Text Strings StringsSpec Bits BitsSpec BitsProofs Case CaseSpec CaseText CasePure CaseSem CaseStatic CaseMove CaseResidual CaseDeriv CaseNice CaseSplit CaseKinds CaseCompile CasePaths CaseFalls CaseWays MissingPatterns MissingPatternsSpec MissingPatternsShown.
Import ListNotations.
Local Open Scope nat_scope.
Local Open Scope list_scope.

(** ** Names *)
Lemma get_by_left_spec m n l : match get_by_left (m, n) l with
  | Some a => In ((m, n), a) l
  | None => forall a, ~ In ((m, n), a) l
  end.
Proof.
  induction l as [|[[m' n'] a'] l IH]; [intros a []|]. cbn [get_by_left fst snd].
  destruct (text_eqb m' m && text_eqb n' n) eqn:E.
  - apply andb_true_iff in E as [E1 E2]. apply text_eqb_iff in E1, E2. subst. now left.
  - destruct (get_by_left (m, n) l); [now right|]. intros a [X|X]; [|now apply (IH a)]. injection X as -> -> ->.
    rewrite (proj2 (text_eqb_iff m m) eq_refl), (proj2 (text_eqb_iff n n) eq_refl) in E. discriminate.
Qed.
Lemma get_module_spec m l : match get_module m l with
  | Some a => In (m, a) l
  | None => forall a, ~ In (m, a) l
  end.
Proof.
  induction l as [|[m' a'] l IH]; [intros a []|]. cbn [get_module]. destruct (text_eqb m' m) eqn:E.
  - apply text_eqb_iff in E. subst. now left.
  - destruct (get_module m l); [now right|]. intros a [X|X]; [|now apply (IH a)]. injection X as -> ->.
    rewrite (proj2 (text_eqb_iff m m) eq_refl) in E. discriminate.
Qed.
Lemma last_part_short m : short_module m (last_part m).
Proof.
  assert (forall c m, existsb (N.eqb c) m = true <-> In c m) as EX.
  { clear. intros c m. rewrite existsb_exists. split; [intros (x & I & E); apply N.eqb_eq in E; congruence|intros I; exists c; split; [assumption|apply N.eqb_refl]]. }
  induction m as [|c m IH]; [split; [intros []|now left]|]. cbn [last_part]. destruct (existsb (N.eqb 47) (c :: m)) eqn:E.
  - destruct IH as [NI IH]. split; [assumption|]. right. destruct IH as [IH|(b & IH)].
    + assert (c = 47%N) as ->. { apply EX in E as [E|E]; [now symmetry|]. rewrite <- IH in NI. contradiction. } exists []. cbn. now rewrite <- IH.
    + exists (c :: b). cbn. now rewrite IH at 1.
  - split; [|now left]. intros I. apply EX in I. congruence.
Qed.
Lemma constructor_text_name ns m n : constructor_name ns m n (constructor_text ns m n).
Proof.
  unfold constructor_text, named_constructor. pose proof (get_by_left_spec m n (local_value_constructors ns)) as H.
  destruct (get_by_left (m, n) _) as [a|]; [now apply name_local|]. pose proof (get_module_spec m (imported_modules ns)) as H'.
  destruct (get_module m _) as [a|]; [now apply name_imported|]. apply name_elsewhere; auto. apply last_part_short.
Qed.

(** ** Loops *)
Lemma print_all_commas {A} (f : A -> out text) l xs : Forall2 (fun a x => f a = Done x) l xs -> forall first,
  print_all f first l = Done (match xs with [] => [] | _ => (if first then [] else str ", ") ++ commas xs end).
Proof.
  induction 1 as [|a x l xs H F IH]; intros first; [reflexivity|]. cbn [print_all]. rewrite H. cbn [bind]. rewrite IH. cbn [bind]. destruct xs as [|y xs]; cbn [commas]; [now rewrite app_nil_r|reflexivity].
Qed.
Lemma print_all_commas_true {A} (f : A -> out text) l xs : Forall2 (fun a x => f a = Done x) l xs -> print_all f true l = Done (commas xs).
Proof. intros F. rewrite (print_all_commas f l xs F). now destruct xs. Qed.

(** ** Labels *)
Lemma labels_below i j ps : i < j -> get_label i (labels_from j ps) = None.
Proof.
  revert j. induction ps as [|[[l|] t] ps IH]; intros j L; cbn; auto. destruct (Nat.eqb_spec j i); [lia|]. apply IH. lia.
Qed.
Lemma get_label_from ps : forall j i, get_label (j + i) (labels_from j ps) = match nth_error ps i with Some (l, _) => l | None => None end.
Proof.
  induction ps as [|[l t] ps IH]; intros j i; [now destruct i|]. destruct i as [|i]; cbn [nth_error].
  - rewrite Nat.add_0_r. destruct l; cbn; [now rewrite Nat.eqb_refl|]. apply labels_below. lia.
  - rewrite <- (IH (S j) i). destruct l; cbn; [destruct (Nat.eqb_spec j (j + S i)); [lia|]|]; f_equal; lia.
Qed.
Lemma skipn_past {A} (a b : list A) : skipn (length a) (a ++ b) = b.
Proof. induction a; cbn; auto. Qed.
Lemma variant_fields_from ps vs : forall k, length vs + k = length ps ->
  variant_fields k (labels_from 0 ps) vs = combine (map fst (skipn k ps)) vs.
Proof.
  induction vs as [|v vs IH]; intros k L; cbn [variant_fields]; [now destruct (map fst (skipn k ps))|].
  rewrite (get_label_from ps 0 k : get_label k _ = _). rewrite IH by (cbn in L; lia).
  destruct (nth_error ps k) as [[l t]|] eqn:N; [|apply nth_error_None in N; cbn in L; lia].
  apply nth_error_split in N as (l1 & l2 & -> & <-). rewrite skipn_past. cbn [map fst combine]. do 3 f_equal.
  change (l1 ++ (l, t) :: l2) with (l1 ++ [(l, t)] ++ l2). rewrite app_assoc.
  replace (S (length l1)) with (length (l1 ++ [(l, t)])) by (rewrite app_length; cbn; lia). now rewrite skipn_past.
Qed.

Section Print.
  Context (env : environment) (ns : names) (is_internal : text -> text -> bool).
  Notation shown := (shown env ns is_internal).
  Notation shown_all := (shown_all env ns is_internal).
  Notation shown_rest := (shown_rest env ns is_internal).
  Notation shown_fields := (shown_fields env ns is_internal).
  Definition to_term (e : cvar * check) (t : term) : Prop := check_to_term env (fst e) (snd e) = Done t.

  Lemma to_term_variable v c t : check_to_term env v c = Done t -> term_variable t = v.
  Proof.
    destruct c; cbn; try (intros [= <-]; reflexivity). destruct (var_type v); try discriminate.
    destruct (get_constructors_for_type env module name) as [tv|]; [|discriminate]. destruct (nth_error (tv_variants tv) index); [|discriminate]. intros [= <-]. reflexivity.
  Qed.
  Lemma mapping_last es ts i : Forall2 to_term es ts -> forall k m,
    match last_check es i with
    | None => mapping_get (mapping_from k ts m) i = mapping_get m i
    | Some c => exists j v t, mapping_get (mapping_from k ts m) i = Some (k + j) /\ nth_error ts j = Some t /\ In (v, c) es /\ id v = i /\ check_to_term env v c = Done t
    end.
  Proof.
    induction 1 as [|[v c] t es ts H F IH]; intros k m; [reflexivity|]. cbn [last_check mapping_from]. red in H. cbn [fst snd] in H.
    specialize (IH (S k) ((id (term_variable t), k) :: m)). destruct (last_check es i) as [c'|].
    - destruct IH as (j & u & t' & E & N & I & EI & CT). exists (S j), u, t'. rewrite E. split; [f_equal; lia|]. split; [assumption|]. split; [now right|auto].
    - rewrite IH. cbn [mapping_get]. rewrite (to_term_variable _ _ _ H). destruct (Nat.eqb_spec (id v) i) as [<-|]; [|reflexivity].
      exists 0, v, t. rewrite Nat.add_0_r. split; [reflexivity|]. split; [reflexivity|]. split; [now left|auto].
  Qed.

  Section Way.
    Context (es : list (cvar * check)) (ts : list term) (V : list cvar) (fl : flags).
    Context (TE : Forall2 to_term es ts) (CK : checked env es fl V) (ND : NoDup (map id V)) (IV : forall v c, In (v, c) es -> In v V).
    Context (UP : forall v c w, In (v, c) es -> In w (check_vars c) -> id v < id w).
    Notation last w := (last_check es (id w)).
    Notation mapping := (mapping_from 0 ts []).
    Notation print := (print env ns is_internal ts mapping).
    Notation print_list := (print_list env ns is_internal ts mapping).
    Definition later (i : nat) : nat := length (filter (fun e => i <? id (fst e)) es).

    Lemma later_less i j c : last_check es i = Some c -> j < i -> later i < later j.
    Proof.
      intros L LT. apply last_in in L as (v & I & <-). unfold later. clear - I LT. induction es as [|e l IH]; [destruct I|]. cbn [filter].
      assert (length (filter (fun e => id v <? id (fst e)) l) <= length (filter (fun e => j <? id (fst e)) l)) as LE.
      { clear - LT. induction l as [|e l IH]; cbn [filter]; [lia|]. destruct (Nat.ltb_spec (id v) (id (fst e))), (Nat.ltb_spec j (id (fst e))); cbn [length]; lia. }
      destruct I as [->|I]; cbn [fst].
      - rewrite Nat.ltb_irrefl. destruct (Nat.ltb_spec j (id v)); [cbn [length]; lia|lia].
      - specialize (IH I). destruct (Nat.ltb_spec (id v) (id (fst e))), (Nat.ltb_spec j (id (fst e))); cbn [length]; lia.
    Qed.
    Lemma later_bound i : later i <= length ts.
    Proof.
      rewrite <- (Forall2_len _ _ _ TE). unfold later. clear. induction es as [|e l IH]; cbn [filter]; [lia|]. destruct (_ <? _); cbn [length]; lia.
    Qed.
    Lemma look w : In w V -> match last w with
      | None => mapping_get mapping (id w) = None
      | Some c => exists j t, mapping_get mapping (id w) = Some j /\ nth_error ts j = Some t /\ check_to_term env w c = Done t
      end.
    Proof.
      intros I. pose proof (mapping_last es ts (id w) TE 0 []) as M. destruct (last w) as [c|] eqn:L; [|exact M].
      destruct M as (j & v & t & E & N & IE & EI & CT). assert (v = w) as -> by (apply (same_id V); eauto). now exists j, t.
    Qed.
    Lemma child w c u : In w V -> last w = Some c -> In u (check_vars c) -> In u V /\ id w < id u.
    Proof.
      intros I L IU. split; [now apply (CK w c I L)|]. destruct (last_in _ _ _ L) as (v & IE & E). rewrite <- E. eapply UP; eauto.
    Qed.

    (** Printing with some fuel works for the variables after [i]. *)
    Definition prints (fuel i : nat) : Prop := forall w c t, In w V -> i <= id w -> last w = Some c -> check_to_term env w c = Done t ->
      exists p x, print fuel t = Done x /\ shown es w p x.
    Lemma variable_shown fuel i w : prints fuel i -> In w V -> i <= id w ->
      exists p x, print_variable ts mapping (print fuel) w = Done x /\ shown es w p x.
    Proof.
      intros PR I LE. unfold print_variable. pose proof (look w I) as LK. destruct (last w) as [c|] eqn:L.
      - destruct LK as (j & t & -> & -> & CT). now apply (PR w c t).
      - rewrite LK. exists TPDiscard, (str "_"). split; [reflexivity|]. constructor. now left.
    Qed.
    Lemma all_shown fuel i vs : prints fuel i -> (forall w, In w vs -> In w V /\ i <= id w) ->
      exists ps xs, Forall2 (fun w x => print_variable ts mapping (print fuel) w = Done x) vs xs /\ shown_all es vs ps xs.
    Proof.
      intros PR. induction vs as [|v vs IH]; intros H; [exists [], []; split; constructor|]. destruct (H v (or_introl eq_refl)) as [I LE].
      destruct (variable_shown fuel i v PR I LE) as (p & x & E & S). destruct IH as (ps & xs & F & SA); [intros w J; apply H; now right|].
      exists (p :: ps), (x :: xs). split; constructor; assumption.
    Qed.
    Lemma literal_term c w t : check_to_term env w c = Done t -> (literal_check c <-> t = TInfinite w).
    Proof.
      destruct c; cbn; try (intros [= <-]; split; [reflexivity|trivial]; fail); try (intros [= <-]; split; [intros []|discriminate]; fail).
      destruct (var_type w); try discriminate. destruct (get_constructors_for_type env module name) as [tv|]; [|discriminate].
      destruct (nth_error (tv_variants tv) index); [|discriminate]. intros [= <-]. split; [intros []|discriminate].
    Qed.
    Lemma fields_shown fuel i ls vs : prints fuel i -> length ls = length vs -> (forall w, In w vs -> In w V /\ i <= id w) ->
      exists ps xs, Forall2 (fun f x => print_field ts mapping (print fuel) f = Done x) (combine ls vs) xs /\ shown_fields es ls vs ps xs.
    Proof.
      intros PR. revert ls. induction vs as [|v vs IH]; intros [|l ls] LEN H; try discriminate; [exists [], []; split; constructor|].
      destruct (IH ls) as (ps & xs & F & SA); [cbn in LEN; lia|intros w J; apply H; now right|]. destruct (H v (or_introl eq_refl)) as [I LE].
      cbn [combine].
      assert (exists p x, print_field ts mapping (print fuel) (l, v) = Done x /\ forall ps xs, shown_fields es ls vs ps xs -> shown_fields es (l :: ls) (v :: vs) (p :: ps) (x :: xs)) as (p & x & E & S).
      { unfold print_field. pose proof (look v I) as LK. destruct (last v) as [c|] eqn:L.
        - destruct LK as (j & t & -> & -> & CT). destruct (PR v c t I LE L CT) as (p & x & PX & S). destruct l as [l|].
          + destruct t as [v0 nm m fs|v0 vs0|v0|v0|v0 a r].
            3:{ exists (TPVariable l), (l ++ str ":"). split; [reflexivity|]. intros ps' xs' SF. constructor; [|assumption]. right. exists c. split; [assumption|].
                pose proof (to_term_variable _ _ _ CT) as TV. cbn in TV. subst v0. apply (literal_term _ _ _ CT). reflexivity. }
            all: rewrite PX; cbn [bind]; exists p, (l ++ str ": " ++ x); (split; [rewrite <- app_assoc; reflexivity|]); intros ps' xs' SF; now constructor.
          + exists p, x. rewrite PX. split; [destruct t; reflexivity|]. intros ps' xs' SF. now constructor.
        - rewrite LK. destruct l as [l|].
          + exists (TPVariable l), (l ++ str ":"). split; [now rewrite app_nil_r|]. intros ps' xs' SF. constructor; [now left|assumption].
          + exists TPDiscard, (str "_"). split; [reflexivity|]. intros ps' xs' SF. constructor; [|assumption]. constructor. now left. }
      exists (p :: ps), (x :: xs). split; [now constructor|now apply S].
    Qed.

    Lemma print_shown fuel :
      (forall w c t, In w V -> last w = Some c -> check_to_term env w c = Done t -> 2 * later (id w) + 2 <= fuel ->
         exists p x, print fuel t = Done x /\ shown es w p x) /\
      (forall w a r, In w V -> last w = Some (IsNonEmptyList a r) -> 2 * later (id w) + 1 <= fuel ->
         exists p x ps xs tail, print_list fuel (TList w a r) = Done (commas (x :: xs) ++ ending tail) /\ shown es a p x /\ shown_rest es r ps xs tail).
    Proof.
      induction fuel as [|fuel [IHP IHL]]; [split; intros; lia|].
      assert (forall w c, In w V -> last w = Some c -> 2 * later (id w) <= fuel -> prints fuel (S (id w))) as PR.
      { intros w c I L LE u c' t IU LU L' CT. apply (IHP u c' t IU L' CT). pose proof (later_less (id u) (id w) c' L' LU). lia. }
      split.
      - intros w c t I L CT LE. destruct (CK w c I L) as ((n & n' & BW & C) & SV).
        assert (prints fuel (S (id w))) as PW by (eapply PR; eauto; lia).
        assert (forall u, In u (check_vars c) -> In u V /\ S (id w) <= id u) as CH by (intros u IU; destruct (child w c u I L IU); split; [assumption|lia]).
        assert (literal_check c -> exists p x, print (S fuel) t = Done x /\ shown es w p x) as LIT.
        { intros LC. pose proof LC as LC'. apply (literal_term _ _ _ CT) in LC' as ->. exists TPDiscard, (str "_"). split; [reflexivity|]. constructor. right. eauto. }
        destruct c as [z|z|s|s r|k vs|tst|mt i ls vs|a r|]; try (apply LIT; exact I0 || exact Logic.I); cbn in CT.
        + injection CT as <-. destruct (all_shown fuel (S (id w)) vs PW CH) as (ps & xs & F & SA). exists (TPTuple ps), (str "#(" ++ commas xs ++ str ")").
          split; [|now apply shown_tuple with k vs]. cbn [MissingPatterns.print]. rewrite (print_all_commas_true _ _ _ F). reflexivity.
        + destruct (var_type w) as [| | | | | | | | |m nm args inferred] eqn:ET; try discriminate.
          destruct (variant_check env _ _ _ _ _ _ _ _ _ _ _ _ C ET) as (tv & k & G & N & OP & INF & TV & LS). rewrite G, N in CT. injection CT as <-.
          assert (length (map fst (c_parameters k)) = length vs) as LN.
          { apply (f_equal (@length _)) in TV. unfold field_types in TV. rewrite !map_length in TV. now rewrite map_length. }
          assert (variant_fields 0 ls vs = combine (map fst (c_parameters k)) vs) as VF.
          { rewrite LS, variant_fields_from; cbn [skipn].
            - unfold specialise_constructor. cbn [c_parameters]. now rewrite map_map.
            - unfold specialise_constructor. cbn [c_parameters]. rewrite map_length. rewrite map_length in LN. lia. }
          cbn [MissingPatterns.print type_is_internal]. rewrite ET. cbn [type_is_internal]. destruct (is_internal m nm && negb (text_eqb m (current_module env))) eqn:HID.
          * exists TPDiscard, (str "_"). split; [reflexivity|]. eapply shown_hidden; [exact L|exact ET|]. apply andb_true_iff in HID as [H1 H2]. intros [H|H]; [congruence|].
            apply negb_true_iff in H2. apply text_eqb_iff in H. congruence.
          * assert (visible env is_internal m nm) as VIS.
            { apply andb_false_iff in HID as [H|H]; [now left|right]. apply negb_false_iff in H. now apply text_eqb_iff. }
            destruct (fields_shown fuel (S (id w)) (map fst (c_parameters k)) vs PW LN CH) as (ps & xs & F & SF). rewrite VF.
            exists (TPConstructor i (constructor_text ns m (c_name k)) (c_name k) None ps), (constructor_text ns m (c_name k) ++ arguments_text xs).
            split; [|eapply shown_variant; eauto; apply constructor_text_name].
            pose proof (Forall2_len _ _ _ F) as LF. rewrite (print_all_commas_true _ _ _ F). cbn [bind].
            destruct (combine (map fst (c_parameters k)) vs) as [|f fs]; destruct xs as [|x xs]; try discriminate LF; cbn [arguments_text]; [now rewrite app_nil_r|reflexivity].
        + injection CT as <-. destruct (IHL w a r I L) as (p & x & ps & xs & tail & E & SA & SR); [lia|].
          exists (TPList (p :: ps) tail), (str "[" ++ commas (x :: xs) ++ ending tail ++ str "]"). split; [|eapply shown_cons; eauto].
          change (print (S fuel) (TList w a r)) with (let* s := print_list fuel (TList w a r) in Done (str "[" ++ s ++ str "]")).
          rewrite E. cbn [bind]. now rewrite <- app_assoc.
        + injection CT as <-. exists (TPList [] None), (str "[]"). split; [reflexivity|now constructor].
      - intros w a r I L LE. destruct (CK w _ I L) as ((n & n' & BW & C) & SV). cbn [check_vars] in SV.
        assert (prints fuel (S (id w))) as PW by (eapply PR; eauto; lia).
        assert (forall u, In u [a; r] -> In u V /\ S (id w) <= id u) as CH by (intros u IU; destruct (child w _ u I L IU); split; [assumption|lia]).
        destruct (CH a (or_introl eq_refl)) as [IA LA]. destruct (CH r (or_intror (or_introl eq_refl))) as [IR LR].
        destruct (variable_shown fuel (S (id w)) a PW IA LA) as (p & x & PX & SX). 
        change (print_list (S fuel) (TList w a r)) with
          (let* s := print_variable ts mapping (print fuel) a in
           let* q := match mapping_get mapping (id r) with
             | Some index => match nth_error ts index with None => Panic | Some (TEmptyList _) => Done [] | Some t => let* q := print_list fuel t in Done (str ", " ++ q) end
             | None => Done (str ", ..") end in Done (s ++ q)).
        rewrite PX. cbn [bind].
        pose proof (look r IR) as LK. destruct (last r) as [c|] eqn:LRC.
        + destruct LK as (j & t & -> & -> & CT). destruct (CK r c IR LRC) as ((n0 & n0' & _ & C') & _).
          assert (exists t, var_type r = CList t) as [lt ET].
          { pose proof (ok_tcheck env _ _ _ _ _ C ltac:(intros [u ?]; discriminate)) as TC. inversion TC; subst. eauto. }
          destruct (literal_or env _ _ _ _ _ C') as [LC|TC].
          { exfalso. destruct C' as ([TC|[EB _]] & _); [|congruence]. rewrite ET in TC. inversion TC; subst; destruct LC. }
          rewrite ET in TC. inversion TC as [| | | | |t0 E1 E2|t0 f r' E1 E2 E3|]; subst; cbn in CT; injection CT as <-.
          * exists p, x, [], [], None. cbn [bind commas ending]. split; [reflexivity|]. split; [assumption|now constructor].
          * destruct (IHL r f r' IR LRC) as (p' & x' & ps & xs & tail & E & SA & SR); [pose proof (later_less (id r) (id w) _ LRC ltac:(lia)); lia|].
            rewrite E. cbn [bind]. exists p, x, (p' :: ps), (x' :: xs), tail. split; [|split; [assumption|eapply rest_cons; eauto]].
            change (commas (x :: x' :: xs)) with (x ++ str ", " ++ commas (x' :: xs)). now rewrite <- !app_assoc.
        + rewrite LK. exists p, x, [], [], (Some TPDiscard). cbn [bind commas ending]. split; [reflexivity|]. split; [assumption|now constructor].
    Qed.
    Lemma print_terms_shown subjects : (forall w, In w subjects -> In w V) ->
      exists ps xs, print_terms env ns is_internal ts mapping subjects = Done (commas xs) /\ shown_all es subjects ps xs.
    Proof.
      intros IS. destruct (all_shown (print_fuel ts) 0 subjects) as (ps & xs & F & SA).
      - intros w c t I _ L CT. apply (proj1 (print_shown (print_fuel ts)) w c t I L CT). unfold print_fuel. pose proof (later_bound (id w)). lia.
      - intros w I. split; [now apply IS|lia].
      - exists ps, xs. split; [|assumption]. unfold print_terms. now apply print_all_commas_true.
    Qed.
  End Way.
End Print.
