(** The ways of a decision tree that end without a clause: the shape of the tree, and that it
    has such a way exactly when a missing case was noticed. *)
From Coq Require Import ZArith NArith Bool List Lia Permutation.
From Verif Require Import Text Strings StringsSpec Bits BitsSpec BitsProofs Case CaseSpec CaseText CasePure CaseSem CaseStatic CaseMove CaseResidual CaseDeriv CaseNice CaseSplit CaseKinds CaseStringSplit CaseBitSplit CaseLoop CaseCompile.
Import ListNotations.
Local Open Scope nat_scope.

(** ** Ways that end without a clause *)
Definition fallback_checks (fc : fallback_check) : list check :=
  match fc with InfiniteCatchAll => [] | FallbackRuntimeCheck c => [c] | CatchAll cs => cs end.
(** What the fallback is given. *)
Definition fallback_vars (fc : fallback_check) : list cvar :=
  match fc with FallbackRuntimeCheck c => check_vars c | _ => [] end.
(** The checks made on the way. *)
Inductive path : decision -> list (cvar * check) -> Prop :=
  | path_fail : path Fail []
  | path_guard g b d es : path d es -> path (Guard g b d) es
  | path_choice v cs fb fc c d es : In (c, d) cs -> path d es -> path (Switch v cs fb fc) ((v, c) :: es)
  | path_infinite v cs fb es : path fb es -> path (Switch v cs fb InfiniteCatchAll) es
  | path_fallback v cs fb fc c es : In c (fallback_checks fc) -> path fb es -> path (Switch v cs fb fc) ((v, c) :: es).

(** ** Which checks there are *)
Record flags := Flags { literals : bool; slices : bool }.
Definition allowed (fl : flags) (c : check) : Prop :=
  match c with
  | IsInt _ | IsFloat _ | IsString _ => literals fl = true
  | IsStringPrefix _ _ | IsBitArray _ => slices fl = true
  | _ => True
  end.
Inductive within (fl : flags) : tree -> Prop :=
  | in_discard : within fl (T ADiscard)
  | in_variable n : within fl (T (AVariable n))
  | in_assign n t : within fl t -> within fl (T (AAssign n t))
  | in_int z : literals fl = true -> within fl (T (AInt z))
  | in_float z : literals fl = true -> within fl (T (AFloat z))
  | in_string s : literals fl = true -> within fl (T (AString s))
  | in_prefix s n r : literals fl = true -> slices fl = true -> within fl (T (AStringPrefix s n r))
  | in_slice s n r : slices fl = true -> within fl (T (AStringPrefixSlice s n r))
  | in_bits ts : slices fl = true -> within fl (T (ABitArray ts))
  | in_tuple ts : Forall (within fl) ts -> within fl (T (ATuple ts))
  | in_variant i u n m ts : Forall (within fl) ts -> within fl (T (AVariant i u n m ts))
  | in_cons a r : within fl a -> within fl r -> within fl (T (ANonEmptyList a r))
  | in_nil : within fl (T AEmptyList).
Definition slice (t : tree) : Prop := exists s n r, t = T (AStringPrefixSlice s n r).
(** The branches test the variables of [L]. *)
Definition covers (fl : flags) (L : list cvar) (bs : list (branch tree)) : Prop :=
  forall b v t, In b bs -> In (v, t) (checks b) -> (In v L \/ slice t) /\ within fl t.

(** What is left to test after a test of a variable. *)
Definition without (v : cvar) (L : list cvar) : list cvar :=
  match var_type v with CBitArray => L | _ => filter (fun w => negb (Nat.eqb (id w) (id v))) L end.
Lemma in_without v L w : In w (without v L) -> In w L.
Proof. unfold without. destruct (var_type v); try (intros I; apply filter_In in I; apply I); auto. Qed.
Lemma other_without v L w : In w L -> id w <> id v -> In w (without v L).
Proof.
  intros I N. assert (In w (filter (fun w => negb (Nat.eqb (id w) (id v))) L)) as F.
  { apply filter_In. split; [assumption|]. apply negb_true_iff. now apply Nat.eqb_neq. }
  unfold without. destruct (var_type v); auto.
Qed.

Section Paths.
  Context (env : environment)
          (outside : text -> Z)
          (float_is : text -> endianness -> list bool -> bool)
          (finite : endianness -> list bool -> bool)
          (float_value : text -> val).
  Definition none (_ : nat) (_ : list (text * val)) : bool := false.
  Lemma none_perm : forall c l m, Permutation l m -> none c l = none c m.
  Proof. reflexivity. Qed.
  Notation passes := (passes outside float_is finite).
  Notation run := (run outside float_is finite float_value none).
  Notation has_type := (has_type env).
  Notation okt := (okt env outside float_is finite).
  Notation okb := (okb env outside float_is finite).
  Notation inv := (inv env outside float_is finite).
  Notation tcheck := (tcheck env).
  Notation part_ok := (part_ok env outside float_is finite).
  Notation compiled := (compiled env outside float_is finite float_value none).
  Notation later := (later env).

  Definition check_ok (fl : flags) (n n' : nat) (v : cvar) (c : check) : Prop :=
    (tcheck (var_type v) c \/ (var_type v = CBitArray /\ exists t, c = IsBitArray t)) /\ fresh_vars c /\
    (forall w, In w (check_vars c) -> n <= id w < n') /\
    (forall m nm args j, var_type v = CNamed m nm args (Some j) -> forall mt i ls vs, c = IsVariant mt i ls vs -> i = j) /\
    allowed fl c.

  (** The shape of a tree whose variables are those of [L], all below [n]. *)
  Inductive wfd (fl : flags) : nat -> list cvar -> decision -> Prop :=
    | wfd_run n L b : wfd fl n L (Run b)
    | wfd_fail n L : wfd fl n L Fail
    | wfd_guard n L g b d : wfd fl n L d -> wfd fl n L (Guard g b d)
    | wfd_switch n n' L v cs fb fc :
        NoDup (map id L) -> (forall w, In w L -> id w < n) -> In v L -> n <= n' ->
        NoDup (map check_kind (map fst cs ++ fallback_checks fc)) ->
        Forall (check_ok fl n n' v) (map fst cs ++ fallback_checks fc) ->
        (fc = InfiniteCatchAll -> mode_of env (var_type v) = Done Infinite) ->
        (fc <> InfiniteCatchAll -> fallback_checks fc <> [] /\ forall y, has_type y (var_type v) ->
           exists c, In c (map fst cs ++ fallback_checks fc) /\ passes c y <> None) ->
        (forall c d, In (c, d) cs -> wfd fl n' (without v L ++ check_vars c) d) ->
        wfd fl n' (without v L ++ fallback_vars fc) fb ->
        wfd fl n L (Switch v cs fb fc).

  Definition traced fl n L x d x' : Prop :=
    wfd fl n L d /\ (missing x' = true <-> missing x = true \/ exists es, path d es).

  (** ** Branches and their variables *)
  Lemma moved_within fl t u : moved t u -> within fl t -> within fl u.
  Proof.
    induction 1; intros W; [assumption| | |]; inversion W; subst; auto; constructor; assumption.
  Qed.
  Lemma covers_moved fl L bs bs' : Forall2 (movedb ) bs bs' -> covers fl L bs -> covers fl L bs' /\
    forall b v t, In b bs' -> In (v, t) (checks b) -> In v L.
  Proof.
    intros M C. assert (forall b v t, In b bs' -> In (v, t) (checks b) -> In v L /\ within fl t) as K.
    { intros b' v u IB IC. assert (exists b, In b bs /\ movedb b b') as (b & JB & (_ & _ & _ & MV & RF)).
      { clear - M IB. induction M as [|b c bs bs' H F IH]; [destruct IB|]. destruct IB as [->|IB].
        - exists b. split; [now left|assumption].
        - destruct (IH IB) as (a & I & R). exists a. split; [now right|assumption]. }
      destruct (mv_in _ _ _ _ MV IC) as (p & IP & MP). destruct (C b v p JB IP) as [CL CW].
      split; [|eapply moved_within; eassumption]. destruct CL as [CL|(s & nm & r & ->)]; [assumption|].
      inversion MP; subst. rewrite Forall_forall in RF. destruct (RF _ IC). }
    split; intros b v t I J; [|apply (K b v t I J)]. destruct (K b v t I J). auto.
  Qed.

  Lemma covers_keep fl L v bs l : (forall b w t, In b bs -> In (w, t) (checks b) -> In w L) -> covers fl L bs ->
    sub (fun b b' => keeps v b /\ b' = b) bs l -> covers fl (without v L) l.
  Proof.
    intros IL C S b w t IB IC. destruct (sub_in _ _ _ _ S IB) as (b0 & I0 & K & ->).
    split; [left|apply (C b0 w t I0 IC)]. apply other_without; [now apply (IL b0 w t)|].
    unfold keeps in K. rewrite Forall_forall in K. exact (K _ IC).
  Qed.
  Lemma covers_weaken fl L L' bs : (forall v, In v L -> In v L') -> covers fl L bs -> covers fl L' bs.
  Proof. intros I C b v t IB IC. destruct (C b v t IB IC) as [[A|A] B]; auto. Qed.

  Lemma residual_within fl v c p new : tcheck (var_type v) c -> residual env outside float_is finite v c p new -> within fl p ->
    (Forall (fun q => In (fst q) (check_vars c)) new \/ (forall q, In q new -> slice (snd q))) /\ Forall (fun q => within fl (snd q)) new.
  Proof.
    intros K (O & R & PU & E) W. destruct p as [p]. cbn [un] in *.
    destruct (new_spec env outside float_is finite _ v p c O R K PU eq_refl) as (new' & E' & (_ & NV & _)).
    rewrite E in E'. injection E' as <-. split.
    - destruct NV as [NV|[->|(s & a & b & ->)]].
      + left. apply Forall_forall. intros q I. rewrite <- NV. now apply in_map.
      + left. constructor.
      + right. intros q [<-|[]]. cbn. unfold slice. eauto.
    - assert (forall (vs : list cvar) ps, Forall (within fl) ps -> Forall (fun q => within fl (snd q)) (combine vs ps)) as CB.
      { clear. intros vs ps F. apply Forall_forall. intros [w q] I. apply in_combine_r in I. rewrite Forall_forall in F. cbn. auto. }
      destruct p; try (destruct R; fail); inversion W; subst; destruct c; cbn in E; try discriminate;
        repeat match type of E with
          | (if ?b then _ else _) = _ => destruct b
          | match ?b with _ => _ end = _ => destruct b
          | Done _ = Done _ => injection E as <-
          | Panic = Done _ => discriminate E
          end; try discriminate E; auto; repeat constructor; auto.
      inversion O as [| | | | | |? ? ? ? ? SR| | | | | |]; subst. destruct SR as [->|[n ->]]; constructor.
  Qed.
  Lemma covers_deriv fl L v c bs l : (forall b w t, In b bs -> In (w, t) (checks b) -> In w L) -> covers fl L bs ->
    tcheck (var_type v) c -> sub (deriv v (residual env outside float_is finite v c)) bs l ->
    (forall b p cs, In b bs -> Permutation (checks b) ((v, p) :: cs) -> Forall (fun q => id (fst q) <> id v) cs) ->
    covers fl (without v L ++ check_vars c) l.
  Proof.
    intros IL C K S ON b' w t IB IC. destruct (sub_in _ _ _ _ S IB) as (b & JB & [[KP ->]|(p & cs & new & P & -> & R)]).
    - split; [left; apply in_or_app; left|apply (C b w t JB IC)]. apply other_without; [now apply (IL b w t)|].
      unfold keeps in KP. rewrite Forall_forall in KP. exact (KP _ IC).
    - cbn [checks with_checks] in IC. apply in_app_iff in IC as [IC|IC].
      + assert (In (w, t) (checks b)) as J by (apply (Permutation_in (l := (v, p) :: cs)); [now apply Permutation_sym|now right]).
        split; [left; apply in_or_app; left|apply (C b w t JB J)]. apply other_without; [now apply (IL b w t)|].
        pose proof (ON b p cs JB P) as F. rewrite Forall_forall in F. exact (F _ IC).
      + assert (In (v, p) (checks b)) as J by (apply (Permutation_in (l := (v, p) :: cs)); [now apply Permutation_sym|now left]).
        destruct (residual_within fl v c p new K R (proj2 (C b v p JB J))) as [A B]. rewrite Forall_forall in B.
        split; [|exact (B _ IC)]. destruct A as [A|A]; [|right; exact (A _ IC)].
        left. apply in_or_app. right. rewrite Forall_forall in A. exact (A _ IC).
  Qed.
  Lemma covers_bits fl L v f bs l : (forall b w t, In b bs -> In (w, t) (checks b) -> In w L) -> covers fl L bs ->
    sub (deriv v (bits_residual env outside float_is finite v f)) bs l -> covers fl L l.
  Proof.
    intros IL C S b' w t IB IC. destruct (sub_in _ _ _ _ S IB) as (b & JB & [[KP ->]|(p & cs & new & P & -> & R)]).
    - apply (C b w t JB IC).
    - cbn [checks with_checks] in IC. apply in_app_iff in IC as [IC|IC].
      + assert (In (w, t) (checks b)) as J by (apply (Permutation_in (l := (v, p) :: cs)); [now apply Permutation_sym|now right]).
        apply (C b w t JB J).
      + assert (In (v, p) (checks b)) as J by (apply (Permutation_in (l := (v, p) :: cs)); [now apply Permutation_sym|now left]).
        destruct R as (ts & -> & _ & ->). destruct IC as [[= <- <-]|[]]. destruct (C b v _ JB J) as [A B].
        split; [left; now apply (IL b v (T (ABitArray ts)))|]. inversion B; subst. now constructor.
  Qed.

  (** ** Compiling *)
  Lemma all_choices_traced fl (compile : list (branch tree) -> context -> out (decision * context)) n' (Lc : check -> list cvar) cs :
    (forall c l x, In (c, l) cs -> n' <= variable_id x -> exists d x', compile l x = Done (d, x') /\ variable_id x <= variable_id x' /\ traced fl n' (Lc c) x d x') ->
    forall x, n' <= variable_id x -> exists ds x', compile_all_choices compile cs x = Done (ds, x') /\ variable_id x <= variable_id x' /\
      map fst ds = map fst cs /\ (forall c d, In (c, d) ds -> wfd fl n' (Lc c) d) /\
      (missing x' = true <-> missing x = true \/ exists c d es, In (c, d) ds /\ path d es).
  Proof.
    induction cs as [|[c l] cs IH]; intros HC x LE; cbn [compile_all_choices].
    - exists [], x. split; [reflexivity|]. split; [lia|]. split; [reflexivity|]. split; [intros c d []|]. split; [auto|]. intros [M|(c & d & es & [] & _)]. assumption.
    - destruct (HC c l x (or_introl eq_refl) LE) as (d & x1 & -> & L1 & W1 & M1). cbn [bind].
      destruct (IH (fun c' l' y I => HC c' l' y (or_intror I)) x1) as (ds & x2 & -> & L2 & E2 & W2 & M2); [lia|]. cbn [bind].
      exists ((c, d) :: ds), x2. split; [reflexivity|]. split; [lia|]. split; [cbn; now rewrite E2|]. split.
      + intros c' d' [[= <- <-]|I]; auto.
      + rewrite M2, M1. split.
        * intros [[M|(es & P)]|(c' & d' & es & I & P)]; [now left|right; exists c, d, es; split; [now left|assumption]|right; exists c', d', es; split; [now right|assumption]].
        * intros [M|(c' & d' & es & [[= <- <-]|I] & P)]; [now left; left|left; right; eauto|right; eauto 6].
  Qed.

  Lemma switch_path v cs fb fc es : path (Switch v cs fb fc) es <->
    (exists c d es', In (c, d) cs /\ path d es' /\ es = (v, c) :: es') \/
    (fc = InfiniteCatchAll /\ path fb es) \/
    (exists c es', In c (fallback_checks fc) /\ path fb es' /\ es = (v, c) :: es').
  Proof.
    split.
    - intros P. inversion P; subst; eauto 10.
    - intros [(c & d & es' & I & P & ->)|[[-> P]|(c & es' & I & P & ->)]]; [eapply path_choice; eassumption|now apply path_infinite|now apply path_fallback].
  Qed.
  Lemma switch_fails v cs fb fc : (fc = InfiniteCatchAll \/ fallback_checks fc <> []) ->
    ((exists es, path (Switch v cs fb fc) es) <-> (exists c d es, In (c, d) cs /\ path d es) \/ exists es, path fb es).
  Proof.
    intros F. split.
    - intros [es P]. apply switch_path in P as [(c & d & es' & I & P & ->)|[[-> P]|(c & es' & I & P & ->)]]; eauto 8.
    - intros [(c & d & es & I & P)|[es P]]; [eexists; eapply path_choice; eassumption|]. destruct F as [->|F].
      + eexists. apply path_infinite. eassumption.
      + destruct (fallback_checks fc) as [|c cs'] eqn:E; [congruence|]. exists ((v, c) :: es). apply path_fallback; [rewrite E; now left|assumption].
  Qed.

  Lemma live_nodup v L vs n n' : NoDup (map id L) -> (forall w, In w L -> id w < n) -> n <= n' ->
    NoDup (map id vs) -> (forall w, In w vs -> n <= id w < n') ->
    NoDup (map id (without v L ++ vs)) /\ forall w, In w (without v L ++ vs) -> id w < n'.
  Proof.
    intros ND B LE FV BV. split.
    - rewrite map_app. apply NoDup_app_intro; [|exact FV|].
      + unfold without. assert (NoDup (map id (filter (fun w => negb (Nat.eqb (id w) (id v))) L))) as F.
        { clear - ND. induction L as [|a L IH]; cbn; [constructor|]. inversion ND; subst. destruct (negb _); cbn; [|auto].
          constructor; [|auto]. intros I. apply in_map_iff in I as (w & E & I). apply filter_In in I as [I _]. apply H1. rewrite <- E. now apply in_map. }
        destruct (var_type v); assumption.
      + intros i I J. apply in_map_iff in I as (w & <- & I). apply in_map_iff in J as (u & E & J). apply in_without in I. specialize (B w I). specialize (BV u J). lia.
    - intros w I. apply in_app_iff in I as [I|I]; [apply in_without in I; specialize (B w I); lia|now apply BV].
  Qed.
  Lemma made_ok fl v p G0 n0 G m first others s n : n0 <= n ->
    inv G0 n0 (first :: others) -> Forall refutables (first :: others) -> In (v, T p) (checks first) -> mode_of env (var_type v) = Done m ->
    covers fl (map fst (flat_map (fun b => checks b) (first :: others))) (first :: others) ->
    made_by env outside float_is finite v n0 G m (first :: others) s n ->
    NoDup (map (fun ch => check_kind (fst ch)) (choices s)) /\ Forall (fun ch => check_ok fl n0 n v (fst ch)) (choices s).
  Proof.
    intros LE I RF IV M C MB. pose proof I as (FO & _ & _). rewrite Forall_forall in FO. specialize (FO first (or_introl eq_refl)).
    assert (okt true (var_type v) (T p)) as OP by (destruct FO as (F & _); rewrite Forall_forall in F; apply (F _ IV)).
    assert (refutable p) as RP.
    { rewrite Forall_forall in RF. specialize (RF first (or_introl eq_refl)). unfold refutables in RF. rewrite Forall_forall in RF. exact (RF _ IV). }
    pose proof (proj2 (C first v (T p) (or_introl eq_refl) IV)) as WP.
    destruct MB as [(CO & _ & KN & ND & CR)|(EB & t & l & f & g & EC & _ & _)].
    - split; [assumption|]. apply Forall_forall. intros [c l] IC. rewrite Forall_forall in CO. destruct (CO _ IC) as (TC & FV & B & _). cbn [fst] in *.
      split; [now left|]. split; [assumption|]. split; [intros w IW; apply B, IW|]. split.
      + intros m' nm args j ET mt i ls vs ->. rewrite ET in M, TC. inversion TC as [| | | | | | |m0 n0' args0 inf ks i0 k mt0 ls0 vs0 MM NN]; subst.
        rewrite MM in M. injection M as <-. destruct (KN eq_refl _ IC) as (k' & K & KK). cbn in K. injection K as <-. cbn in KK. congruence.
      + remember (var_type v) as ty eqn:ET. destruct c; cbn [allowed]; auto; inversion TC; subst; match goal with H : _ = var_type v |- _ => rewrite <- H in OP, CR end.
        * inversion OP; subst; cbn in RP; try contradiction. now inversion WP.
        * inversion OP; subst; cbn in RP; try contradiction. now inversion WP.
        * destruct (CR eq_refl _ IC) as (b & q & cs & IB & P & SK & RQ & _). cbn in SK. destruct q; try discriminate.
          assert (In (v, T (AString s1)) (checks b)) as J by (apply (Permutation_in (l := (v, T (AString s1)) :: cs)); [now apply Permutation_sym|now left]).
          pose proof (proj2 (C b v _ IB J)) as W. now inversion W.
        * destruct (CR eq_refl _ IC) as (b & q & cs & IB & P & SK & RQ & _). cbn in SK. destruct q; try discriminate.
          assert (In (v, T (AStringPrefix prefix0 prefix_name rest0)) (checks b)) as J by (apply (Permutation_in (l := (v, T (AStringPrefix prefix0 prefix_name rest0)) :: cs)); [now apply Permutation_sym|now left]).
          pose proof (proj2 (C b v _ IB J)) as W. now inversion W.
    - rewrite EC. split; [repeat constructor; intros []|]. constructor; [|constructor]. cbn [fst].
      split; [right; eauto|]. split; [constructor|]. split; [intros w []|]. split; [discriminate|].
      cbn. rewrite EB in OP. inversion OP; subst; cbn in RP; try contradiction. now inversion WP.
  Qed.

  Lemma switch_traced fl compile G0 n0 L v p m first others x :
    inv G0 n0 (first :: others) -> Forall refutables (first :: others) -> In (v, T p) (checks first) ->
    mode_of env (var_type v) = Done m -> n0 <= variable_id x ->
    NoDup (map id L) -> (forall w, In w L -> id w < n0) ->
    covers fl L (first :: others) -> (forall b w t, In b (first :: others) -> In (w, t) (checks b) -> In w L) ->
    (forall G n L l x, inv G n l -> n <= variable_id x -> weights l < weights (first :: others) ->
       NoDup (map id L) -> (forall w, In w L -> id w < n) -> covers fl L l ->
       exists d x', compile l x = Done (d, x') /\ variable_id x <= variable_id x' /\ traced fl n L x d x') ->
    exists d x', psplit_and_compile env compile v (first :: others) x = Done (d, x') /\ variable_id x <= variable_id x' /\ traced fl n0 L x d x'.
  Proof.
    intros I RF IV M LE ND BL CV IL HC. unfold psplit_and_compile. rewrite M. cbn [bind].
    destruct (split_result env outside float_is finite float_value none none_perm v G0 n0 m p first others x I RF IV M LE)
      as (ks & x1 & s & x2 & EK & ES & CX & DY & TT & G & PC & PF & GA & MB).
    rewrite EK. cbn [bind]. rewrite ES. cbn [bind].
    assert (covers fl (map fst (flat_map (fun b => checks b) (first :: others))) (first :: others)) as CV'.
    { intros b w t IB IC. split; [left|apply (CV b w t IB IC)]. apply in_map_iff. exists (w, t). split; [reflexivity|]. apply in_flat_map. eauto. }
    destruct CX as (C1 & C2 & _). set (n' := variable_id x2) in *.
    destruct (made_ok fl v p G0 n0 G m first others s n' ltac:(lia) I RF IV M CV' MB) as [KN CK].
    assert (In v L) as VL by (apply (IL first v (T p)); [now left|assumption]).
    assert (forall b q cs, In b (first :: others) -> Permutation (checks b) ((v, q) :: cs) -> Forall (fun c => id (fst c) <> id v) cs) as ON.
    { intros b q cs IB P. destruct I as (FO & _). rewrite Forall_forall in FO. destruct (okb_pivot _ _ _ _ _ _ _ _ _ _ (FO b IB) P) as (_ & _ & _ & F & _). exact F. }
    assert (forall c l, In (c, l) (choices s) -> covers fl (without v L ++ check_vars c) l) as CC.
    { intros c l IC. destruct MB as [(CO & _)|(EB & t & l' & f & g & EC & S1 & S2)].
      - rewrite Forall_forall in CO. destruct (CO _ IC) as (TC & _ & _ & S). cbn [fst snd] in *. now apply (covers_deriv fl L v c (first :: others) l).
      - rewrite EC in IC. destruct IC as [[= <- <-]|[]]. eapply covers_weaken; [|eapply covers_bits; [exact IL|exact CV|exact S1]].
        intros w IW. apply in_or_app. left. unfold without. now rewrite EB. }
    assert (covers fl (without v L ++ []) (fallback s)) as CF.
    { rewrite app_nil_r. destruct MB as [(_ & SK & _)|(EB & t & l' & f & g & EC & S1 & S2)].
      - eapply covers_keep; eassumption.
      - unfold without. rewrite EB. eapply covers_bits; [exact IL|exact CV|exact S2]. }
    assert (forall c, In c (map fst (choices s)) -> NoDup (map id (without v L ++ check_vars c)) /\ forall w, In w (without v L ++ check_vars c) -> id w < n') as LV.
    { intros c IC. apply in_map_iff in IC as ([c' l] & E & IC). cbn in E. subst c'. rewrite Forall_forall in CK. destruct (CK _ IC) as (_ & FV & B & _).
      apply (live_nodup v L (check_vars c) n0 n'); auto; lia. }
    assert (NoDup (map id (without v L ++ [])) /\ forall w, In w (without v L ++ []) -> id w < n') as LF.
    { apply (live_nodup v L [] n0 n'); auto; [lia|constructor|intros w []]. }
    assert (forall c l y, In (c, l) (choices s) -> n' <= variable_id y -> exists d x', compile l y = Done (d, x') /\ variable_id y <= variable_id x' /\
      traced fl n' (without v L ++ check_vars c) y d x') as HC1.
    { intros c l y IC LY. rewrite Forall_forall in PC. destruct (PC _ IC) as (PI & PW & _). cbn [snd] in *.
      destruct (LV c) as [A B]; [apply in_map_iff; exists (c, l); auto|]. apply (HC G n' _ l y); auto. }
    assert (forall y, n' <= variable_id y -> exists d x', compile (fallback s) y = Done (d, x') /\ variable_id y <= variable_id x' /\
      traced fl n' (without v L ++ []) y d x') as HC2.
    { intros y LY. destruct PF as (PI & PW & _). destruct LF as [A B]. apply (HC G n' _ _ y); auto. }
    destruct (is_infinite m) eqn:INF.
    - unfold compile_switch. destruct (all_choices_traced fl compile n' (fun c => without v L ++ check_vars c) (choices s) HC1 x2) as (ds & x3 & -> & L3 & E3 & W3 & M3); [unfold n'; lia|]. cbn [bind].
      destruct (HC2 x3) as (d & x4 & -> & L4 & W4 & M4); [unfold n' in *; lia|]. cbn [bind].
      eexists _, x4. split; [reflexivity|]. split; [unfold n' in *; lia|]. split.
      + apply wfd_switch with (n' := n'); auto; try lia; cbn [fallback_checks fallback_vars]; rewrite ?app_nil_r, ?E3.
        * rewrite map_map. exact KN.
        * now apply Forall_map.
        * intros _. rewrite M. destruct m; try discriminate. reflexivity.
        * congruence.
      + rewrite switch_fails by now left. rewrite M4, M3, C2. tauto.
    - destruct (TT eq_refl) as [(T1 & T2 & T3 & T4) IFB].
      destruct (is_empty (choices s)) eqn:EE; [destruct (choices s); [congruence|discriminate]|].
      unfold exhaustive_parts. destruct (existsb (fun c => is_ignored (fst c)) (choices s)) eqn:EX; cbn [bind].
      + unfold compile_switch. set (yes := filter (fun c => negb (is_ignored (fst c))) (choices s)). set (no := filter (fun c => is_ignored (fst c)) (choices s)).
        assert (Permutation (choices s) (yes ++ no)) as PM.
        { unfold yes, no. clear. induction (choices s) as [|a cs IH]; cbn; [constructor|]. destruct (is_ignored (fst a)); cbn.
          - now apply Permutation_cons_app.
          - now constructor. }
        destruct (all_choices_traced fl compile n' (fun c => without v L ++ check_vars c) yes) with (x := x2) as (ds & x3 & -> & L3 & E3 & W3 & M3); [|unfold n'; lia|].
        { intros c l y IC. apply HC1. apply filter_In in IC. apply IC. }
        cbn [bind]. destruct (HC2 x3) as (d & x4 & -> & L4 & W4 & M4); [unfold n' in *; lia|]. cbn [bind].
        assert (map fst no <> []) as NN.
        { apply existsb_exists in EX as (ch & IC & IG). intros E. apply map_eq_nil in E. assert (In ch no) as J by (apply filter_In; auto). rewrite E in J. destruct J. }
        eexists _, x4. split; [reflexivity|]. split; [unfold n' in *; lia|]. split.
        * apply wfd_switch with (n' := n'); auto; try lia; cbn [fallback_checks fallback_vars]; rewrite ?E3, <- ?map_app.
          -- rewrite map_map. apply (Permutation_map (fun ch => check_kind (fst ch))) in PM. apply (Permutation_NoDup PM KN).
          -- apply Forall_map. apply (Permutation_Forall PM CK).
          -- discriminate.
          -- intros _. split; [assumption|]. intros y TY. destruct (T1 y TY) as (c & l & IC & PP). exists c. split; [|assumption].
             apply (Permutation_in _ PM) in IC. apply in_map_iff. exists (c, l). auto.
        * rewrite switch_fails by (right; exact NN). rewrite M4, M3, C2. tauto.
      + destruct (rev (choices s)) as [|[lc ll] oth] eqn:ER; [exfalso; apply T4; rewrite <- (rev_involutive (choices s)), ER; reflexivity|]. cbn [bind].
        assert (choices s = rev oth ++ [(lc, ll)]) as EQ by (rewrite <- (rev_involutive (choices s)), ER; reflexivity).
        unfold compile_switch.
        destruct (all_choices_traced fl compile n' (fun c => without v L ++ check_vars c) (rev oth)) with (x := x2) as (ds & x3 & -> & L3 & E3 & W3 & M3); [|unfold n'; lia|].
        { intros c l y IC. apply HC1. rewrite EQ. apply in_or_app. now left. }
        cbn [bind]. destruct (HC1 lc ll x3) as (d & x4 & -> & L4 & W4 & M4); [rewrite EQ; apply in_elt|unfold n' in *; lia|]. cbn [bind].
        assert (map fst (rev oth) ++ [lc] = map fst (choices s)) as EM by (rewrite EQ, map_app; reflexivity).
        eexists _, x4. split; [reflexivity|]. split; [unfold n' in *; lia|]. split.
        * apply wfd_switch with (n' := n'); auto; try lia; cbn [fallback_checks fallback_vars]; rewrite ?E3, ?EM.
          -- rewrite map_map. exact KN.
          -- now apply Forall_map.
          -- discriminate.
          -- intros _. split; [discriminate|]. intros y TY. destruct (T1 y TY) as (c & l & IC & PP). exists c. split; [|assumption].
             apply in_map_iff. exists (c, l). auto.
        * rewrite switch_fails by (right; discriminate). rewrite M4, M3, C2. tauto.
  Qed.

  Theorem pcompile_traced fl : forall fuel G n L bs x, inv G n bs -> n <= variable_id x -> weights bs < fuel ->
    NoDup (map id L) -> (forall w, In w L -> id w < n) -> covers fl L bs ->
    exists d x', pcompile env fuel bs x = Done (d, x') /\ variable_id x <= variable_id x' /\ traced fl n L x d x'.
  Proof.
    induction fuel as [|fuel IH]; intros G n L bs x I LE W ND BL CV; [lia|]. cbn [pcompile].
    destruct (pmove_all_spec env outside float_is finite float_value none none_perm G n bs I) as (bs' & -> & I' & MV & _). cbn [bind].
    pose proof (movedb_weights _ _ MV) as W'. destruct (covers_moved fl L bs bs' MV CV) as [CV' IL].
    assert (Forall refutables bs') as RF.
    { clear - MV. induction MV as [|b b' bs bs' M F IH]; constructor; [apply M|assumption]. }
    destruct bs' as [|first others].
    - exists Fail, (mark_missing x). split; [reflexivity|]. split; [cbn; lia|]. split; [constructor|]. cbn. split; [|auto]. intros _. right. exists []. constructor.
    - pose proof I' as (FO & PC & NDI). inversion FO as [|? ? OF FO']; subst. inversion RF as [|? ? RF1 RF']; subst.
      destruct (find_pivot_spec env outside float_is finite G n first (first :: others) OF RF1) as [[EC ->]|(v & p & m & -> & IV & M)]; cbn [bind].
      + destruct (guard first) as [g|] eqn:EG.
        * destruct (IH G n L others (mark_as_reached (branch_id first) x)) as (d & x' & -> & L1 & W1 & M1); auto.
          { destruct PC as [_ PC]. inversion NDI; subst. split; [assumption|]. split; assumption. }
          { pose proof (weight_pos first). change (weight first + weights others <= weights bs) in W'. lia. }
          { intros b w t IB IC. apply (CV' b w t); [now right|assumption]. }
          cbn [bind]. eexists _, x'. split; [reflexivity|]. split; [exact L1|]. split; [now constructor|]. rewrite M1. cbn [missing mark_as_reached].
          split; (intros [A|[es A]]; [now left|right]); exists es; [now constructor|now inversion A].
        * eexists _, _. split; [reflexivity|]. split; [cbn; lia|]. split; [constructor|]. cbn. split; [auto|]. intros [A|[es A]]; [assumption|inversion A].
      + destruct (switch_traced fl (pcompile env fuel) G n L v p m first others (mark_as_reached (branch_id first) x)) as (d & x' & -> & R); auto.
        { intros G1 n1 L1 l y I1 LE1 W1. apply (IH G1); auto. lia. }
        exists d, x'. split; [reflexivity|exact R].
  Qed.
End Paths.
