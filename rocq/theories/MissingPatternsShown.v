(** What is shown of a way that ends without a clause: it is a pattern, the values that follow
    the way match it, and for tuples, constructors and lists only they do. *)
From Coq Require Import String ZArith NArith Bool List Lia Permutation.
From Verif Require Import Text Strings StringsSpec Bits BitsSpec BitsProofs Case CaseSpec CaseText CasePure CaseSem CaseStatic CaseMove CaseResidual CaseDeriv CaseNice CaseSplit CaseKinds CaseCompile CasePaths CaseFalls CaseWays MissingPatterns MissingPatternsSpec.
Import ListNotations.
Local Open Scope nat_scope.
Local Open Scope list_scope.

Fixpoint last_check (es : list (cvar * check)) (i : nat) : option check :=
  match es with
  | [] => None
  | (v, c) :: es =>
      match last_check es i with
      | Some k => Some k
      | None => if Nat.eqb (id v) i then Some c else None
      end
  end.
Definition literal_check (c : check) : Prop :=
  match c with IsInt _ | IsFloat _ | IsString _ | IsStringPrefix _ _ | IsBitArray _ => True | _ => False end.
Definition ending (tail : option source) : text := match tail with None => [] | Some _ => str ", .." end.

Lemma last_in es i c : last_check es i = Some c -> exists v, In (v, c) es /\ id v = i.
Proof.
  induction es as [|[v k] es IH]; cbn; [discriminate|]. destruct (last_check es i) as [k'|].
  - intros [= ->]. destruct (IH eq_refl) as (u & I & E). exists u. auto.
  - destruct (Nat.eqb_spec (id v) i); [|discriminate]. intros [= ->]. exists v. auto.
Qed.
Lemma last_app es es' i : last_check (es ++ es') i = match last_check es' i with Some c => Some c | None => last_check es i end.
Proof.
  induction es as [|[v k] es IH]; cbn; [now destruct (last_check es' i)|]. rewrite IH. now destruct (last_check es' i).
Qed.
Lemma last_none es i : (forall v c, In (v, c) es -> id v <> i) -> last_check es i = None.
Proof.
  intros H. destruct (last_check es i) as [c|] eqn:E; [|reflexivity]. apply last_in in E as (v & I & E). now apply H in I.
Qed.

Section Shown.
  Context (env : environment) (ns : names) (is_internal : text -> text -> bool).
  Notation visible := (visible env is_internal).
  Notation written := (written env ns is_internal).
  Notation written_all := (written_all env ns is_internal).
  Notation written_elements := (written_elements env ns is_internal).
  Notation written_fields := (written_fields env ns is_internal).

  Section Way.
    Context (es : list (cvar * check)).
    Notation last w := (last_check es (id w)).
    Definition untested (w : cvar) : Prop := last w = None \/ exists c, last w = Some c /\ literal_check c.
    Inductive shown : cvar -> source -> text -> Prop :=
      | shown_untested w : untested w -> shown w TPDiscard (str "_")
      | shown_hidden w mt i ls vs m n args inferred : last w = Some (IsVariant mt i ls vs) -> var_type w = CNamed m n args inferred ->
          ~ visible m n -> shown w TPDiscard (str "_")
      | shown_tuple w k vs ps xs : last w = Some (IsTuple k vs) -> shown_all vs ps xs ->
          shown w (TPTuple ps) (str "#(" ++ commas xs ++ str ")")
      | shown_nil w : last w = Some IsEmptyList -> shown w (TPList [] None) (str "[]")
      | shown_cons w a r p ps x xs tail : last w = Some (IsNonEmptyList a r) -> shown a p x -> shown_rest r ps xs tail ->
          shown w (TPList (p :: ps) tail) (str "[" ++ commas (x :: xs) ++ ending tail ++ str "]")
      | shown_variant w mt i ls vs m n args inferred tv k name ps xs : last w = Some (IsVariant mt i ls vs) ->
          var_type w = CNamed m n args inferred -> get_constructors_for_type env m n = Some tv -> nth_error (tv_variants tv) i = Some k ->
          visible m n -> constructor_name ns m (c_name k) name -> shown_fields (map fst (c_parameters k)) vs ps xs ->
          shown w (TPConstructor i name (c_name k) None ps) (name ++ arguments_text xs)
    with shown_all : list cvar -> list source -> list text -> Prop :=
      | all_none : shown_all [] [] []
      | all_more v vs p ps x xs : shown v p x -> shown_all vs ps xs -> shown_all (v :: vs) (p :: ps) (x :: xs)
    with shown_rest : cvar -> list source -> list text -> option source -> Prop :=
      | rest_open r : last r = None -> shown_rest r [] [] (Some TPDiscard)
      | rest_nil r : last r = Some IsEmptyList -> shown_rest r [] [] None
      | rest_cons r a r' p ps x xs tail : last r = Some (IsNonEmptyList a r') -> shown a p x -> shown_rest r' ps xs tail ->
          shown_rest r (p :: ps) (x :: xs) tail
    with shown_fields : list (option text) -> list cvar -> list source -> list text -> Prop :=
      | sfields_none : shown_fields [] [] [] []
      | sfields_plain ls v vs p ps x xs : shown v p x -> shown_fields ls vs ps xs -> shown_fields (None :: ls) (v :: vs) (p :: ps) (x :: xs)
      | sfields_labelled l ls v vs p ps x xs : shown v p x -> shown_fields ls vs ps xs ->
          shown_fields (Some l :: ls) (v :: vs) (p :: ps) ((l ++ str ": " ++ x) :: xs)
      | sfields_shorthand l ls v vs ps xs : untested v -> shown_fields ls vs ps xs ->
          shown_fields (Some l :: ls) (v :: vs) (TPVariable l :: ps) ((l ++ str ":") :: xs).
    Scheme shown_ind' := Induction for shown Sort Prop
      with shown_all_ind' := Induction for shown_all Sort Prop
      with shown_rest_ind' := Induction for shown_rest Sort Prop
      with shown_fields_ind' := Induction for shown_fields Sort Prop.
    Combined Scheme shown_mut from shown_ind', shown_all_ind', shown_rest_ind', shown_fields_ind'.

    (** The last checks of the variables [V]. *)
    Definition checked (fl : flags) (V : list cvar) : Prop :=
      forall w c, In w V -> last w = Some c -> (exists n n', id w < n /\ check_ok env fl n n' w c) /\ forall u, In u (check_vars c) -> In u V.

    Lemma literal_or fl n n' v c : check_ok env fl n n' v c -> literal_check c \/ tcheck env (var_type v) c.
    Proof. intros ([TC|[EB [t ->]]] & _); [now right|now left]. Qed.
    Lemma ok_tcheck fl n n' v c : check_ok env fl n n' v c -> ~ (exists t, c = IsBitArray t) -> tcheck env (var_type v) c.
    Proof. intros ([TC|[EB X]] & _) N; [assumption|contradiction]. Qed.

    Lemma variant_check fl n n' v mt i ls vs m nm args inferred : check_ok env fl n n' v (IsVariant mt i ls vs) -> var_type v = CNamed m nm args inferred ->
      exists tv k, get_constructors_for_type env m nm = Some tv /\ nth_error (tv_variants tv) i = Some k /\ (tv_opaque tv = false \/ m = current_module env) /\
        (forall j, inferred = Some j -> i = j) /\ map var_type vs = field_types (tv_parameters tv) args k /\
        ls = labels_from 0 (c_parameters (specialise_constructor (combine (tv_parameters tv) args) k)).
    Proof.
      intros CK E. pose proof (ok_tcheck _ _ _ _ _ CK ltac:(intros [t ?]; discriminate)) as TC. rewrite E in TC.
      destruct CK as (_ & _ & _ & INF & _). inversion TC as [| | | | | | |m' n0 args' inferred' ks i' k mt' ls' vs' M N TV LS]; subst.
      destruct (mode_named env _ _ _ _ _ _ M) as (_ & tv & G & _). cbn in M. rewrite G in M. injection M as M. unfold specialise_constructors in M.
      destruct (tv_opaque tv && _) eqn:OP; [subst ks; destruct i; discriminate|].
      subst ks. rewrite nth_error_map in N. destruct (nth_error (tv_variants tv) i) as [k0|] eqn:NK; [|discriminate]. injection N as <-.
      exists tv, k0. split; [assumption|]. split; [assumption|]. split; [|split; [|split; [|reflexivity]]].
      - apply andb_false_iff in OP as [OP|OP]; [now left|right]. apply negb_false_iff, text_eqb_iff in OP. congruence.
      - intros j ->. exact (INF m nm args j E mt i _ vs eq_refl).
      - now rewrite TV, specialise_fields.
    Qed.

    Lemma shown_written fl V : checked fl V ->
      (forall w p x, shown w p x -> In w V -> written (var_type w) p x) /\
      (forall vs ps xs, shown_all vs ps xs -> (forall w, In w vs -> In w V) -> written_all (map var_type vs) ps xs) /\
      (forall r ps xs tail, shown_rest r ps xs tail -> In r V -> forall t, var_type r = CList t -> written_elements t ps xs /\ (tail = None \/ tail = Some TPDiscard)) /\
      (forall ls vs ps xs, shown_fields ls vs ps xs -> (forall w, In w vs -> In w V) -> written_fields ls (map var_type vs) ps xs).
    Proof.
      intros CK. apply shown_mut.
      - intros w U I. constructor.
      - intros. constructor.
      - intros w k vs ps xs L F IH I. destruct (CK w _ I L) as ((n & n' & _ & C) & SV). pose proof (ok_tcheck _ _ _ _ _ C ltac:(intros [t ?]; discriminate)) as TC.
        revert TC. generalize (var_type w). intros ty TC. inversion TC as [| | | |ts vs' E E'| | |]; subst. apply written_tuple. apply IH. exact SV.
      - intros w L I. destruct (CK w _ I L) as ((n & n' & _ & C) & SV). pose proof (ok_tcheck _ _ _ _ _ C ltac:(intros [t ?]; discriminate)) as TC.
        revert TC. generalize (var_type w). intros ty TC. inversion TC; subst. apply (written_list env ns is_internal t [] []). constructor.
      - intros w a r p ps x xs tail L S1 IH1 S2 IH2 I. destruct (CK w _ I L) as ((n & n' & _ & C) & SV). pose proof (ok_tcheck _ _ _ _ _ C ltac:(intros [t ?]; discriminate)) as TC.
        revert TC. generalize (var_type w). intros ty TC. inversion TC as [| | | | | |t f r' E1 E2 E3|]; subst. destruct (IH2 (SV r (or_intror (or_introl eq_refl))) _ E2) as [WR TL].
        specialize (IH1 (SV a (or_introl eq_refl))).
        assert (written_elements (var_type a) (p :: ps) (x :: xs)) as WE by now constructor.
        destruct TL as [->| ->]; cbn [ending].
        + rewrite (app_nil_l (str "]")). now apply written_list.
        + now apply written_list_tail.
      - intros w mt i ls vs m n args inferred tv k name ps xs L E G N VIS CN S IH I. destruct (CK w _ I L) as ((n0 & n' & _ & C) & SV).
        destruct (variant_check _ _ _ _ _ _ _ _ _ _ _ _ C E) as (tv' & k' & G' & N' & OP & INF & TV & _).
        rewrite G in G'. injection G' as <-. rewrite N in N'. injection N' as <-. rewrite E. apply written_constructor with tv; auto. rewrite <- TV. apply IH. exact SV.
      - constructor.
      - intros v vs p ps x xs S IH F IHF I. cbn. constructor; [apply IH, I; now left|apply IHF; intros w J; apply I; now right].
      - intros r L I t E. split; [constructor|now right].
      - intros r L I t E. split; [constructor|now left].
      - intros r a r' p ps x xs tail L S1 IH1 S2 IH2 I t E. destruct (CK r _ I L) as ((n & n' & _ & C) & SV). pose proof (ok_tcheck _ _ _ _ _ C ltac:(intros [u ?]; discriminate)) as TC.
        rewrite E in TC. inversion TC as [| | | | | |t' f r'' E1 E2 E3|]; subst. destruct (IH2 (SV r' (or_intror (or_introl eq_refl))) _ E2) as [WR TL].
        split; [|assumption]. constructor; [|assumption]. apply IH1. apply SV. now left.
      - constructor.
      - intros ls v vs p ps x xs S IH F IHF I. cbn. constructor; [apply IH, I; now left|apply IHF; intros w J; apply I; now right].
      - intros l ls v vs p ps x xs S IH F IHF I. cbn. constructor; [apply IH, I; now left|apply IHF; intros w J; apply I; now right].
      - intros l ls v vs ps xs U F IHF I. cbn. constructor. apply IHF; intros w J; apply I; now right.
    Qed.

    Context (outside : text -> Z)
            (float_is : text -> endianness -> list bool -> bool)
            (finite : endianness -> list bool -> bool).
    Notation passes := (passes outside float_is finite).
    Notation pattern_matches := (pattern_matches outside float_is finite).
    Notation patterns_match := (patterns_match outside float_is finite).

    (** What follows the way matches what is shown. *)
    Lemma checked_value fl V st w c : checked fl V -> typed env st V -> sat outside float_is finite st es -> NoDup (map id V) ->
      (forall v k, In (v, k) es -> In v V) -> In w V -> last w = Some c -> ~ literal_check c ->
      composed c (map (fun v => st (id v)) (check_vars c)) (st (id w)) /\ forall u, In u (check_vars c) -> In u V.
    Proof.
      intros CK TY S ND IV I L NL. destruct (CK w c I L) as ((n & n' & _ & C) & SV). split; [|exact SV].
      destruct (last_in _ _ _ L) as (v & IE & E). assert (v = w) as -> by (apply (same_id V); eauto).
      unfold sat in S. rewrite Forall_forall in S. destruct (S _ IE) as (bnd & P & B). cbn [fst snd] in *.
      eapply passes_composed; [|exact (TY w I)|exact P|exact B]. destruct (literal_or _ _ _ _ _ C); [contradiction|assumption].
    Qed.
    Lemma shown_matches fl V st : checked fl V -> typed env st V -> sat outside float_is finite st es -> NoDup (map id V) -> (forall v k, In (v, k) es -> In v V) ->
      (forall w p x, shown w p x -> In w V -> exists bs, pattern_matches p (st (id w)) bs) /\
      (forall vs ps xs, shown_all vs ps xs -> (forall w, In w vs -> In w V) -> exists bs, patterns_match ps (map (fun v => st (id v)) vs) bs) /\
      (forall r ps xs tail, shown_rest r ps xs tail -> In r V -> forall ys, st (id r) = VList ys ->
         exists bs, pattern_matches (TPList ps tail) (VList ys) bs) /\
      (forall ls vs ps xs, shown_fields ls vs ps xs -> (forall w, In w vs -> In w V) -> exists bs, patterns_match ps (map (fun v => st (id v)) vs) bs).
    Proof.
      intros CK TY S ND IV. pose proof (fun w c => checked_value fl V st w c CK TY S ND IV) as CV.
      assert (forall a r p ps tail ys y, (exists bs, pattern_matches p y bs) -> (exists bs, pattern_matches (TPList ps tail) (VList ys) bs) -> st (id a) = y -> st (id r) = VList ys ->
        exists bs, pattern_matches (TPList (p :: ps) tail) (VList (y :: ys)) bs) as CONS.
      { intros a r p ps tail ys y [b1 M1] [b2 M2] _ _. inversion M2 as [| | | | | | | | |ps' vs' bs' MM|ps' p' vs' rest bs1 bs2 MM MT|]; subst.
        - eexists. apply match_list. now constructor; [exact M1|exact MM].
        - eexists. rewrite app_comm_cons. apply match_list_tail; [|exact MT]. constructor; [exact M1|exact MM]. }
      apply shown_mut.
      - intros w U I. eexists. constructor.
      - intros. eexists. constructor.
      - intros w k vs ps xs L F IH I. destruct (CV w _ I L) as [CO SV]; [exact (fun x => x)|]. cbn in CO, SV. rewrite CO. destruct (IH SV) as [bs M]. exists bs. now constructor.
      - intros w L I. destruct (CV w _ I L) as [CO SV]; [exact (fun x => x)|]. cbn in CO. rewrite CO. exists []. constructor. constructor.
      - intros w a r p ps x xs tail L S1 IH1 S2 IH2 I. destruct (CV w _ I L) as [CO SV]; [exact (fun x => x)|]. cbn in CO, SV. destruct CO as (y & ys & E & ->). injection E as Ea Er.
        apply (CONS a r p ps tail ys y); auto. rewrite <- Ea. apply IH1. auto.
      - intros w mt i ls vs m n args inferred tv k name ps xs L E G N VIS CN S0 IH I. destruct (CV w _ I L) as [CO SV]; [exact (fun x => x)|]. cbn in CO, SV. rewrite CO.
        destruct (IH SV) as [bs M]. exists bs. now constructor.
      - intros _. exists []. constructor.
      - intros v vs p ps x xs S0 IH F IHF I. destruct (IH (I v (or_introl eq_refl))) as [b1 M1]. destruct IHF as [b2 M2]; [intros w J; apply I; now right|]. eexists. cbn. constructor; eassumption.
      - intros r L I ys E. exists ([] ++ []). apply (match_list_tail outside float_is finite [] TPDiscard [] ys); constructor.
      - intros r L I ys E. destruct (CV r _ I L) as [CO SV]; [exact (fun x => x)|]. cbn in CO. rewrite E in CO. injection CO as ->. exists []. constructor. constructor.
      - intros r a r' p ps x xs tail L S1 IH1 S2 IH2 I zs E. destruct (CV r _ I L) as [CO SV]; [exact (fun x => x)|]. cbn in CO, SV. destruct CO as (y & ys & E' & E2). injection E' as Ea Er.
        rewrite E in E2. injection E2 as ->. apply (CONS a r' p ps tail ys y); auto. rewrite <- Ea. apply IH1. auto.
      - intros _. exists []. constructor.
      - intros ls v vs p ps x xs S0 IH F IHF I. destruct (IH (I v (or_introl eq_refl))) as [b1 M1]. destruct IHF as [b2 M2]; [intros w J; apply I; now right|]. eexists. cbn. constructor; eassumption.
      - intros l ls v vs p ps x xs S0 IH F IHF I. destruct (IH (I v (or_introl eq_refl))) as [b1 M1]. destruct IHF as [b2 M2]; [intros w J; apply I; now right|]. eexists. cbn. constructor; eassumption.
      - intros l ls v vs ps xs U F IHF I. destruct IHF as [b2 M2]; [intros w J; apply I; now right|]. eexists. cbn. constructor; [constructor|eassumption].
    Qed.

    (** A value that matches what is shown passes the check. *)
    Definition fits (w : cvar) (y : val) : Prop := exists p x bs, shown w p x /\ pattern_matches p y bs.
    Lemma all_fit vs ps xs : shown_all vs ps xs -> forall ys bs, patterns_match ps ys bs -> Forall2 fits vs ys.
    Proof.
      induction vs as [|v vs IH] in ps, xs |- *; intros S ys bs M; inversion S; subst; inversion M; subst; constructor.
      - red; eauto.
      - eapply IH; eauto.
    Qed.
    Lemma fields_fit ls vs ps xs : shown_fields ls vs ps xs -> forall ys bs, patterns_match ps ys bs -> Forall2 fits vs ys.
    Proof.
      induction vs as [|v vs IH] in ls, ps, xs |- *; intros S ys bs M; inversion S; subst; inversion M; subst; constructor; try (eapply IH; eauto; fail); try (red; eauto; fail).
      exists TPDiscard, (str "_"), []. split; [now constructor|constructor].
    Qed.
    Lemma rest_fits r ps xs tail ys bs : shown_rest r ps xs tail -> pattern_matches (TPList ps tail) (VList ys) bs -> fits r (VList ys).
    Proof.
      intros S M. inversion S; subst.
      - exists TPDiscard, (str "_"), []. split; [constructor; now left|constructor].
      - exists (TPList [] None), (str "[]"), bs. split; [now constructor|assumption].
      - eexists (TPList (p :: ps0) tail), _, bs. split; [eapply shown_cons; eauto|assumption].
    Qed.
    Lemma fits_passes w c y : (forall m n, visible m n) -> last w = Some c -> ~ literal_check c -> tcheck env (var_type w) c -> has_type env y (var_type w) -> fits w y ->
      exists vals, passes c y = Some (combine (map id (check_vars c)) vals) /\ Forall2 fits (check_vars c) vals.
    Proof.
      intros VIS L NL TC HY (p & x & bs & S & M). inversion S as [w' U|w' mt i ls vs m n args inferred L' E NV|w' k vs ps xs L' F|w' L'|w' a r q ps x' xs tail L' S1 S2|w' mt i ls vs m n args inferred tv k name ps xs L' E G N V' CN SF]; subst.
      - destruct U as [U|(c' & U & LC)]; [congruence|]. rewrite L in U. injection U as <-. contradiction.
      - destruct (NV (VIS m n)).
      - rewrite L in L'. injection L' as ->. inversion M; subst. eexists. cbn. split; [reflexivity|]. eapply all_fit; eauto.
      - rewrite L in L'. injection L' as ->. inversion M as [| | | | | | | | |? ? ? MM| |]; subst. inversion MM; subst. exists []. cbn. split; [reflexivity|constructor].
      - rewrite L in L'. injection L' as ->.
        assert (exists z zs b1 b2, y = VList (z :: zs) /\ pattern_matches q z b1 /\ pattern_matches (TPList ps tail) (VList zs) b2) as (z & zs & b1 & b2 & -> & M1 & M2).
        { inversion M as [| | | | | | | | |? ? ? MM|? ? ? ? ? ? MM MT|]; subst; inversion MM; subst.
          - do 4 eexists. split; [reflexivity|]. split; [eassumption|]. constructor. eassumption.
          - do 4 eexists. cbn. split; [reflexivity|]. split; [eassumption|]. apply match_list_tail; eassumption. }
        exists [z; VList zs]. cbn. split; [reflexivity|]. constructor; [red; eauto|]. constructor; [|constructor]. eapply rest_fits; eauto.
      - rewrite L in L'. injection L' as ->. inversion M; subst. eexists. cbn. destruct (Nat.eq_dec i i); [|congruence]. split; [reflexivity|]. eapply fields_fit; eauto.
    Qed.
  End Way.

  Context (outside : text -> Z)
          (float_is : text -> endianness -> list bool -> bool)
          (finite : endianness -> list bool -> bool)
          (float_value : text -> val).
  Notation passes := (passes outside float_is finite).
  Notation run := (run outside float_is finite float_value none).
  Notation wfd := (wfd env outside float_is finite).
  Notation fitting es := (fits es outside float_is finite).

  Lemma structural fl n n' v c : literals fl = false -> slices fl = false -> check_ok env fl n n' v c ->
    tcheck env (var_type v) c /\ plain c /\ ~ literal_check c.
  Proof.
    intros LF SF CK. destruct (plain_ok env fl n n' v c SF CK) as [TC PL]. split; [assumption|]. split; [assumption|].
    destruct CK as (_ & _ & _ & _ & AL). destruct c; cbn in *; congruence || (intros []; fail) || auto.
  Qed.

  (** What matches the patterns shown is not matched. *)
  Theorem fits_falls fl n L d : literals fl = false -> slices fl = false -> (forall m n, visible m n) -> wfd fl n L d ->
    forall pre es, path d es -> forall st, typed env st L -> (forall w, In w L -> fitting (pre ++ es) w (st (id w))) -> run d st = None.
  Proof.
    intros LF SF VIS. induction 1 as [n L b|n L|n L g b d W IH|n n' L v cs fb fc ND BL VL LE NK CK INF FIN WC IHC WF IHF]; intros pre es P st TY FT.
    - inversion P.
    - reflexivity.
    - inversion P; subst. exact (IH pre es ltac:(assumption) st TY FT).
    - rewrite run_switch. rewrite Forall_forall in CK.
      assert (forall c es', es = (v, c) :: es' -> In c (map fst cs ++ fallback_checks fc) ->
        exists vals, let bnd := combine (map id (check_vars c)) vals in
          passes c (st (id v)) = Some bnd /\
          (forall c', In c' (map fst cs ++ fallback_checks fc) -> check_kind c' <> check_kind c -> passes c' (st (id v)) = None) /\
          typed env (bind_all bnd st) (without v L ++ check_vars c) /\
          forall w, In w (without v L ++ check_vars c) -> fitting (pre ++ es) w (bind_all bnd st (id w))) as K.
      { intros c es' -> IC. pose proof (CK c IC) as CKc. destruct (structural _ _ _ _ _ LF SF CKc) as (TC & PL & NL).
        assert (last_check (pre ++ (v, c) :: es') (id v) = Some c) as LC.
        { rewrite last_app. cbn. rewrite Nat.eqb_refl. rewrite last_none; [reflexivity|].
          assert (way env fl n L ((v, c) :: es')) as W by (eapply path_way; [econstructor|]; eauto; now rewrite Forall_forall).
          intros u k I. eapply way_once; eauto. eapply plain_bits; eauto. }
        destruct (fits_passes _ outside float_is finite v c (st (id v)) VIS LC NL TC (TY v VL) (FT v VL)) as (vals & PV & FV).
        exists vals. cbv zeta. split; [assumption|].
        destruct (bound_typed env outside float_is finite fl n n' v c L st _ CKc BL VL TY PV) as (T1 & A1 & _). split; [|split; [assumption|]].
        - intros c' IC' NK'. destruct (passes c' (st (id v))) as [b|] eqn:PC; [|reflexivity]. exfalso. apply NK'.
          destruct (structural _ _ _ _ _ LF SF (CK c' IC')) as (TC' & PL' & _). symmetry. eapply (exclusive env outside float_is finite (var_type v) c c' (st (id v))); eauto; congruence.
        - intros w I. apply in_app_iff in I as [I|I].
          + apply in_without in I. rewrite A1 by now apply BL. now apply FT.
          + pose proof CKc as (_ & FR & _). apply In_nth_error in I as (j & N).
            pose proof (Forall2_len _ _ _ FV) as LN. pose proof (bound_values (check_vars c) FR vals st (eq_sym LN)) as E.
            apply (f_equal (fun l => nth_error l j)) in E. rewrite nth_error_map, N in E. cbn in E. symmetry in E.
            destruct (Forall2_nth _ _ _ FV j _ E) as (w' & N' & FW). rewrite N in N'. injection N' as <-. exact FW. }
      inversion P as [| |v' cs' fb' fc' c d es' IC PD|v' cs' fb' es' PF|v' cs' fb' fc' c es' IC PF]; subst.
      + assert (In c (map fst cs ++ fallback_checks fc)) as IC' by (apply in_or_app; left; apply in_map_iff; exists (c, d); auto).
        destruct (K c es' eq_refl IC') as (vals & PV & EX & T1 & F1). apply in_split in IC as (l1 & l2 & ->).
        assert (forall c', In c' (map fst l1) -> passes c' (st (id v)) = None) as NF.
        { intros c' I'. apply EX; [rewrite map_app, !in_app_iff; auto|]. intros KE. rewrite (map_app fst) in NK. cbn [map fst] in NK. rewrite <- app_assoc in NK.
          rewrite (map_app check_kind) in NK. cbn [map app] in NK. apply NoDup_remove_2 in NK. apply NK. rewrite <- KE. apply in_or_app. left. now apply in_map. }
        rewrite (pick_here outside float_is finite l1 c d l2 _ _ NF PV).
        apply (IHC c d (in_elt _ _ _) (pre ++ [(v, c)]) es' PD _ T1). rewrite <- app_assoc. exact F1.
      + cbn [fallback_checks fallback_vars] in *. specialize (INF eq_refl).
        assert (cs = []) as ->.
        { destruct cs as [|[c d] cs]; [reflexivity|]. destruct (structural _ _ _ _ _ LF SF (CK c (or_introl eq_refl))) as (TC & PL & NL).
          revert TC INF. generalize (var_type v). intros ty TC INF. destruct TC; cbn in *; try discriminate; try tauto. destruct (get_constructors_for_type env m n0); discriminate. }
        cbn [pick]. apply (IHF pre es PF st); intros w I; rewrite app_nil_r in I; apply in_without in I; [now apply TY|now apply FT].
      + assert (In c (map fst cs ++ fallback_checks fc)) as IC' by (apply in_or_app; now right).
        destruct (K c es' eq_refl IC') as (vals & PV & EX & T1 & F1).
        assert (pick outside float_is finite cs (st (id v)) = None) as ->.
        { apply pick_none. intros c' I'. apply EX; [apply in_or_app; now left|]. intros KE. apply in_split in IC as (l1 & l2 & E). rewrite E in NK.
          rewrite app_assoc, map_app in NK. cbn in NK. apply NoDup_remove_2 in NK. apply NK. rewrite <- KE. apply in_or_app. left. apply in_map. apply in_or_app. now left. }
        destruct fc as [|c'|ign]; cbn [fallback_checks fallback_vars] in *; [destruct IC| |].
        * destruct IC as [->|[]]. rewrite PV. apply (IHF (pre ++ [(v, c)]) es' PF _ T1). rewrite <- app_assoc. exact F1.
        * apply (IHF (pre ++ [(v, c)]) es' PF st).
          -- intros w I. rewrite app_nil_r in I. apply in_without in I. now apply TY.
          -- intros w I. rewrite app_nil_r in I. apply in_without in I. rewrite <- app_assoc. now apply FT.
  Qed.
End Shown.
