(** The compiler of Case.v, which shares the patterns of an arena and changes some of them in
    place, computes what the one on trees (CasePure.v) does, as long as the patterns it may
    change are not shared. *)
From Coq Require Import ZArith NArith Bool List Lia Permutation.
From Verif Require Import Text Strings Bits Case CasePure.
Import ListNotations.
Local Open Scope nat_scope.

(** ** Patterns of the arena and their trees *)
Inductive prel {A B} (R : A -> B -> Prop) : pattern A -> pattern B -> Prop :=
  | r_discard : prel R ADiscard ADiscard
  | r_int z : prel R (AInt z) (AInt z)
  | r_float f : prel R (AFloat f) (AFloat f)
  | r_string s : prel R (AString s) (AString s)
  | r_prefix s n r t : R r t -> prel R (AStringPrefix s n r) (AStringPrefix s n t)
  | r_slice s a b : prel R (AStringPrefixSlice s a b) (AStringPrefixSlice s a b)
  | r_assign n r t : R r t -> prel R (AAssign n r) (AAssign n t)
  | r_variable n : prel R (AVariable n) (AVariable n)
  | r_tuple rs ts : Forall2 R rs ts -> prel R (ATuple rs) (ATuple ts)
  | r_variant i u n m rs ts : Forall2 R rs ts -> prel R (AVariant i u n m rs) (AVariant i u n m ts)
  | r_cons a r x t : R a x -> R r t -> prel R (ANonEmptyList a r) (ANonEmptyList x t)
  | r_nil : prel R AEmptyList AEmptyList
  | r_bits ts : prel R (ABitArray ts) (ABitArray ts).
Lemma prel_mono {A B} (R R' : A -> B -> Prop) p q : (forall a b, R a b -> R' a b) -> prel R p q -> prel R' p q.
Proof.
  intros H P. assert (forall l m, Forall2 R l m -> Forall2 R' l m) as F by (induction 1; constructor; auto).
  destruct P; constructor; auto.
Qed.

(** Tests in front of which nothing is moved; patterns that moving leaves as they are. *)
Definition settled (t : test) : bool :=
  match t with Match (MVariable _ | MDiscard _ | MAssign _ _) _ => false | _ => true end.
Definition settled_front (ts : list test) : Prop := match ts with t :: _ => settled t = true | [] => False end.
Definition steady {P} (p : pattern P) : Prop :=
  match p with
  | AStringPrefix _ (Some _) _ | AStringPrefixSlice _ _ _ => False
  | ABitArray ts => settled_front ts
  | _ => True
  end.
Definition ordered {P} (R : P -> Prop) (p : pattern P) : Prop := match p with AAssign _ j => R j | _ => True end.

(** [sdec S a i t]: the pattern [i] is the tree [t]; all its nodes are in [S] and steady. *)
Inductive sdec (S : pid -> Prop) (a : arena) : pid -> tree -> Prop :=
  sdec_node i p q : S i -> nth_error a i = Some p -> steady p -> ordered (fun j => j < i) p ->
    prel (sdec S a) p q -> sdec S a i (T q).
(** [udec S a i t j]: the same, but it ends in a node [j] that need not be steady. *)
Inductive udec (S : pid -> Prop) (a : arena) : pid -> tree -> pid -> Prop :=
  | udec_here j p q : nth_error a j = Some p -> (forall n k, p <> AAssign n k) -> prel (sdec S a) p q -> udec S a j (T q) j
  | udec_assign i n k t j : nth_error a i = Some (AAssign n k) -> k < i -> udec S a k t j -> S i ->
      udec S a i (T (AAssign n t)) j.

Lemma Forall2_impl_in {A B} (R R' : A -> B -> Prop) l m : Forall2 R l m -> (forall a b, In b m -> R a b -> R' a b) -> Forall2 R' l m.
Proof. induction 1; intros H'; constructor; [apply H'; [now left|assumption]|apply IHForall2; intros; apply H'; [now right|assumption]]. Qed.

Lemma sdec_frame (S S' : pid -> Prop) a a' t : forall i, (forall k, S k -> S' k /\ nth_error a' k = nth_error a k) ->
  sdec S a i t -> sdec S' a' i t.
Proof.
  induction t as [p IH] using tree_ind'. intros i F D. inversion D as [i' p0 q SI N ST O P]; subst. rewrite Forall_forall in IH.
  destruct (F i SI) as [SI' E]. econstructor; [assumption|rewrite E; exact N|assumption|assumption|].
  assert (forall t, In t (subtrees p) -> forall r, sdec S a r t -> sdec S' a' r t) as IH' by (intros; eapply IH; eauto).
  assert (forall l m, (forall t, In t m -> In t (subtrees p)) -> Forall2 (sdec S a) l m -> Forall2 (sdec S' a') l m) as FF.
  { intros l m HM FA. eapply Forall2_impl_in; [exact FA|]. intros x y I. apply IH', HM, I. }
  destruct P; cbn [subtrees] in *; constructor; auto; (apply IH'; [cbn; auto|assumption]).
Qed.
Lemma udec_frame (S S' : pid -> Prop) a a' i t j : (forall k, S k -> S' k /\ nth_error a' k = nth_error a k) ->
  nth_error a' j = nth_error a j -> udec S a i t j -> udec S' a' i t j.
Proof.
  intros F E U. induction U as [j p q N NA P|i n k t j N L U IH SI].
  - eapply udec_here; [rewrite E; exact N|assumption|]. eapply prel_mono; [|exact P]. intros x y. now apply sdec_frame.
  - destruct (F i SI) as [SI' EI]. eapply udec_assign; [rewrite EI; exact N|assumption|now apply IH|assumption].
Qed.

(** ** Checks and branches.  The list is that of the nodes that are not in [S]. *)
Inductive crel (S : pid -> Prop) (a : arena) : list pid -> cvar * pid -> cvar * tree -> Prop :=
  | c_shared v i t : sdec S a i t -> crel S a [] (v, i) (v, t)
  | c_private v i t j : udec S a i t j -> crel S a [j] (v, i) (v, t).
Inductive csrel (S : pid -> Prop) (a : arena) : list pid -> list (cvar * pid) -> list (cvar * tree) -> Prop :=
  | cs_nil : csrel S a [] [] []
  | cs_cons P Q c t cs ts : crel S a P c t -> csrel S a Q cs ts -> csrel S a (P ++ Q) (c :: cs) (t :: ts).
Definition brel (S : pid -> Prop) (a : arena) (P : list pid) (b : branch pid) (t : branch tree) : Prop :=
  clause_index b = clause_index t /\ alternative_index b = alternative_index t /\ guard b = guard t /\
  branch_body b = branch_body t /\ csrel S a P (checks b) (checks t).
Inductive bsrel (S : pid -> Prop) (a : arena) : list pid -> list (branch pid) -> list (branch tree) -> Prop :=
  | bs_nil : bsrel S a [] [] []
  | bs_cons P Q b t bs ts : brel S a P b t -> bsrel S a Q bs ts -> bsrel S a (P ++ Q) (b :: bs) (t :: ts).

(** What may change: only the nodes of [P]. *)
Definition frame (P : list pid) (a a' : arena) : Prop :=
  length a <= length a' /\ forall k, k < length a -> ~ In k P -> nth_error a' k = nth_error a k.
Definition inside (S : pid -> Prop) (a : arena) : Prop := forall k, S k -> k < length a.
Definition apart (S : pid -> Prop) (a : arena) (P : list pid) : Prop :=
  NoDup P /\ forall k, In k P -> k < length a /\ ~ S k.
Lemma frame_refl P a : frame P a a.
Proof. split; auto. Qed.
Lemma frame_trans P Q R a b c : frame P a b -> frame Q b c -> (forall k, In k P \/ In k Q -> k < length a -> In k R) -> frame R a c.
Proof.
  intros [L1 F1] [L2 F2] H. split; [lia|]. intros k LK NI. rewrite F2, F1; auto; try lia; intros I; apply NI, H; auto.
Qed.
Lemma frame_app P a b : frame P a (a ++ b).
Proof. split; [rewrite app_length; lia|]. intros k L _. now rewrite nth_error_app1. Qed.

Section Frames.
  Context (S S' : pid -> Prop) (a a' : arena) (P : list pid).
  Context (F : frame P a a') (I : inside S a) (SS : forall k, S k -> S' k) (D : forall k, In k P -> ~ S k).
  Lemma frame_sdec i t : sdec S a i t -> sdec S' a' i t.
  Proof using All.
    apply sdec_frame. intros k SK. split; [auto|]. destruct F as [_ FF]. apply FF; [auto|]. intros J. now apply (D k J).
  Qed.
  Lemma frame_crel Q c t : (forall k, In k Q -> k < length a /\ ~ In k P) -> crel S a Q c t -> crel S' a' Q c t.
  Proof using All.
    intros H C. destruct C as [v i t SD|v i t j UD]; constructor; [now apply frame_sdec|].
    eapply udec_frame; [| |exact UD].
    - intros k SK. split; [auto|]. destruct F as [_ FF]. apply FF; [auto|]. intros J. now apply (D k J).
    - destruct F as [_ FF]. destruct (H j (or_introl eq_refl)). now apply FF.
  Qed.
  Lemma frame_csrel Q cs ts : (forall k, In k Q -> k < length a /\ ~ In k P) -> csrel S a Q cs ts -> csrel S' a' Q cs ts.
  Proof using All.
    intros H C. induction C as [|Q1 Q2 c t cs ts C1 C2 IH]; constructor.
    - apply frame_crel; [|assumption]. intros k J. apply H, in_app_iff. now left.
    - apply IH. intros k J. apply H, in_app_iff. now right.
  Qed.
  Lemma frame_brel Q b t : (forall k, In k Q -> k < length a /\ ~ In k P) -> brel S a Q b t -> brel S' a' Q b t.
  Proof using All. intros H (A1 & A2 & A3 & A4 & A5). repeat (split; [assumption|]). now apply frame_csrel. Qed.
  Lemma frame_bsrel Q bs ts : (forall k, In k Q -> k < length a /\ ~ In k P) -> bsrel S a Q bs ts -> bsrel S' a' Q bs ts.
  Proof using All.
    intros H C. induction C as [|Q1 Q2 c t cs ts C1 C2 IH]; constructor.
    - apply frame_brel; [|assumption]. intros k J. apply H, in_app_iff. now left.
    - apply IH. intros k J. apply H, in_app_iff. now right.
  Qed.
End Frames.

(** ** Changing a pattern *)
Lemma set_same i p a : nth_error a i = Some p -> set_pattern i p a = a.
Proof. revert i. induction a as [|q a IH]; intros [|i]; cbn; try discriminate; [congruence|]. intros H. now rewrite IH. Qed.
Lemma set_length i p a : length (set_pattern i p a) = length a.
Proof. revert i. induction a as [|q a IH]; intros [|i]; cbn; auto. Qed.
Lemma set_at i p a : i < length a -> nth_error (set_pattern i p a) i = Some p.
Proof. revert i. induction a as [|q a IH]; intros [|i]; cbn; intros H; auto; try lia. apply IH. lia. Qed.
Lemma set_other i j p a : i <> j -> nth_error (set_pattern i p a) j = nth_error a j.
Proof. revert i j. induction a as [|q a IH]; intros [|i] [|j] H; cbn; auto; congruence. Qed.
Lemma set_frame i p a : frame [i] a (set_pattern i p a).
Proof. split; [rewrite set_length; lia|]. intros k _ N. apply set_other. intros ->. apply N. now left. Qed.

(** ** Moving unconditional patterns *)
Lemma move_tests_settled v ts b : settled_front ts -> move_tests v ts b = Done (ts, b).
Proof. destruct ts as [|[| [| | | | |]| | |] ts]; cbn; intros H; try discriminate; try contradiction; reflexivity. Qed.
Lemma move_tests_front v ts : forall b ts' b', move_tests v ts b = Done (ts', b') -> ts' = [] \/ settled_front ts'.
Proof.
  induction ts as [|t ts IH]; intros b ts' b' H; [injection H as <- _; now left|].
  destruct t as [|[f|z br|s br|n|n|n w] r| | |]; cbn in H; try (injection H as <- _; right; reflexivity); try (eapply IH; eassumption).
  destruct (is_discard w); [eapply IH; eassumption|].
  destruct w; cbn in H; try discriminate; injection H as <- _; right; reflexivity.
Qed.

Definition orel (S : pid -> Prop) (a : arena) (c : option (cvar * pid)) (t : option (cvar * tree)) : Prop :=
  match c, t with
  | None, None => True
  | Some (v, i), Some (w, t) => v = w /\ sdec S a i t
  | _, _ => False
  end.

Lemma move_shared S a v t : forall i b o b' fuel, sdec S a i t -> pmove v t b = Done (o, b') -> i < fuel ->
  exists o', move_check fuel v i b a = Done (o', b', a) /\ orel S a o' o.
Proof.
  induction t as [p IH] using tree_ind'. intros i b o b' fuel D M L. destruct fuel as [|fuel]; [lia|]. cbn [move_check].
  pose proof D as D0. inversion D as [i' p0 q SI N ST O P]; subst. rewrite N.
  destruct P as [|z|f|s|s n r t R|s x y|n r t R|n|rs ts F|j u n m rs ts F|x r t1 t2 R1 R2| |ts]; cbn [pmove steady ordered subtrees] in *;
    try (injection M as <- <-; eexists; split; [reflexivity|]; cbn; auto; fail).
  - destruct n; [contradiction|]. injection M as <- <-. eexists. split; [reflexivity|]. cbn. auto.
  - contradiction.
  - inversion IH as [|? ? IH1 _]; subst. eapply IH1; [exact R|exact M|lia].
  - rewrite move_tests_settled in M by assumption. rewrite move_tests_settled by assumption. cbn [bind] in *.
    rewrite (set_same _ _ _ N). destruct ts as [|t ts]; [destruct ST|]. injection M as <- <-. eexists. split; [reflexivity|]. cbn. auto.
Qed.
Lemma move_private S a v i t j : udec S a i t j -> forall b o b' fuel, inside S a -> ~ S j -> pmove v t b = Done (o, b') -> i < fuel -> j < length a ->
  exists o' a', move_check fuel v i b a = Done (o', b', a') /\ frame [j] a a' /\ length a' = length a /\ orel (fun k => S k \/ k = j) a' o' o.
Proof.
  induction 1 as [j p q N NA P|i n k t j N LK U IH SI]; intros b o b' fuel IN NS M L LJ; (destruct fuel as [|fuel]; [lia|]); cbn [move_check]; rewrite N.
  - assert (forall p', frame [j] a (set_pattern j p' a)) as SF by (intros; apply set_frame).
    assert (forall x, prel (sdec S a) x q -> forall p', prel (sdec S a) x q -> prel (sdec (fun k => S k \/ k = j) (set_pattern j p' a)) x q) as PM.
    { intros x _ p' PX. eapply prel_mono; [|exact PX]. intros y t'. apply sdec_frame. intros k SK. split; [now left|]. apply set_other. intros ->. contradiction. }
    assert (forall x q', prel (sdec S a) x q' -> steady x -> (forall n k, x <> AAssign n k) ->
      sdec (fun k => S k \/ k = j) (set_pattern j x a) j (T q')) as NODE.
    { intros x q' PX ST NX. econstructor; [now right|now apply set_at|assumption| |].
      - destruct x; cbn; auto. exfalso. eapply NX. reflexivity.
      - eapply prel_mono; [|exact PX]. intros y t'. apply sdec_frame. intros k SK. split; [now left|]. apply set_other. intros ->. contradiction. }
    assert (steady p -> sdec (fun k => S k \/ k = j) a j (T q)) as SAME.
    { intros ST. rewrite <- (set_same _ _ _ N). now apply NODE. }
    destruct P as [|z|f|s|s n r t R|s x y|n r t R|n|rs ts F|i u n m rs ts F|x r t1 t2 R1 R2| |ts]; cbn [pmove steady] in *;
      try (injection M as <- <-; eexists _, a; split; [reflexivity|]; split; [apply frame_refl|]; split; [reflexivity|]; cbn; auto; fail).
    + destruct n as [n|].
      * injection M as <- <-. eexists _, _. split; [reflexivity|]. split; [apply SF|]. split; [apply set_length|]. cbn. split; [reflexivity|]. apply NODE; [now constructor|exact I|discriminate].
      * injection M as <- <-. eexists _, a. split; [reflexivity|]. split; [apply frame_refl|]. split; [reflexivity|]. cbn. auto.
    + injection M as <- <-. eexists _, _. split; [reflexivity|]. split; [apply SF|]. split; [apply set_length|]. exact I.
    + exfalso. eapply NA. reflexivity.
    + destruct (move_tests v ts b) as [[ts' b1]| |] eqn:MT; try discriminate. cbn [bind] in *. pose proof (move_tests_front _ _ _ _ _ MT) as FR.
      destruct ts' as [|t ts'].
      * injection M as <- <-. eexists _, _. split; [reflexivity|]. split; [apply SF|]. split; [apply set_length|]. exact I.
      * injection M as <- <-. eexists _, _. split; [reflexivity|]. split; [apply SF|]. split; [apply set_length|]. cbn. split; [reflexivity|].
        apply NODE; [constructor|destruct FR; [discriminate|assumption]|discriminate].
  - cbn [pmove] in M. eapply IH; eauto. lia.
Qed.

Lemma orel_frame (S S' : pid -> Prop) a a' P o t : frame P a a' -> inside S a -> (forall k, S k -> S' k) -> (forall k, In k P -> ~ S k) ->
  orel S a o t -> orel S' a' o t.
Proof. intros F I SS D. destruct o as [[v i]|], t as [[w t]|]; cbn; auto. intros [-> H]. split; [reflexivity|]. eapply frame_sdec; eassumption. Qed.

Lemma sdec_in S a i t : inside S a -> sdec S a i t -> i < length a.
Proof. intros I D. inversion D; subst. auto. Qed.
Lemma udec_in S a i t j : inside S a -> j < length a -> udec S a i t j -> i < length a.
Proof. intros I L U. destruct U; auto. Qed.

(** All the nodes are shared. *)
Definition srel (S : pid -> Prop) (a : arena) (c : cvar * pid) (t : cvar * tree) : Prop := fst c = fst t /\ sdec S a (snd c) (snd t).

Lemma move_checks_refine S cs : forall a P ts, csrel S a P cs ts -> forall b ts' b', inside S a -> apart S a P -> pmove_checks ts b = Done (ts', b') ->
  exists cs' a', move_checks cs b a = Done (cs', b', a') /\ frame P a a' /\ length a' = length a /\ Forall2 (srel (fun k => S k \/ In k P) a') cs' ts'.
Proof.
  induction cs as [|c cs IH]; intros a P ts0 C b ts' b' IN [ND AP] M; inversion C as [|P1 P2 c' t cs' ts C1 C2]; subst; cbn [move_checks pmove_checks] in *.
  - injection M as <- <-. exists [], a. split; [reflexivity|]. split; [apply frame_refl|]. split; [reflexivity|constructor].
  - assert (NoDup P1 /\ NoDup P2 /\ forall k, In k P1 -> In k P2 -> False) as (ND1 & ND2 & DJ).
    { clear - ND. induction P1 as [|k P1 IH]; cbn in *; [repeat split; auto; constructor|]. inversion ND as [|? ? NI ND']; subst.
      destruct (IH ND') as (A & B & C). rewrite in_app_iff in NI. split; [constructor; tauto|]. split; [assumption|]. intros k' [<-|I] J; [tauto|eauto]. }
    assert (exists v i tt, c = (v, i) /\ t = (v, tt) /\ i < length a /\ forall o b1, pmove v tt b = Done (o, b1) ->
      exists o' a1, move_check (Datatypes.S (length a)) v i b a = Done (o', b1, a1) /\ frame P1 a a1 /\ length a1 = length a /\ orel (fun k => S k \/ In k P1) a1 o' o)
      as (v & i & tt & -> & -> & LI & STEP).
    { destruct C1 as [v i t SD|v i t j UD]; exists v, i, t; (split; [reflexivity|]; split; [reflexivity|]).
      - pose proof (sdec_in _ _ _ _ IN SD) as L. split; [assumption|]. intros o b1 PM.
        destruct (move_shared S a v t i b o b1 (Datatypes.S (length a)) SD PM) as (o' & E & R); [lia|]. exists o', a. split; [assumption|].
        split; [apply frame_refl|]. split; [reflexivity|]. apply (orel_frame S _ a a [] o' o); [apply frame_refl|exact IN|auto|intros k []|exact R].
      - destruct (AP j) as [LJ NS]; [apply in_app_iff; left; now left|]. pose proof (udec_in _ _ _ _ _ IN LJ UD) as L. split; [assumption|]. intros o b1 PM.
        destruct (move_private S a v i t j UD b o b1 (Datatypes.S (length a)) IN NS PM) as (o' & a1 & E & F & LL & R); [lia|assumption|]. exists o', a1.
        split; [assumption|]. split; [assumption|]. split; [assumption|]. destruct o' as [[v1 i1]|], o as [[v2 t2]|]; cbn in *; auto.
        destruct R as [-> R]. split; [reflexivity|]. eapply sdec_frame; [|exact R]. intros k [K| ->]; auto. }
    destruct (pmove v tt b) as [[o b1]| |] eqn:PM; try discriminate. cbn [bind] in M.
    destruct (STEP o b1 eq_refl) as (o' & a1 & -> & F1 & L1 & R1). cbn [bind].
    destruct (pmove_checks ts b1) as [[ts1 b2]| |] eqn:PMS; try discriminate. cbn [bind] in M. injection M as <- <-.
    assert (inside S a1) as IN1 by (intros k SK; rewrite L1; auto).
    assert (apart S a1 P2) as AP2.
    { split; [assumption|]. intros k K. rewrite L1. apply AP, in_app_iff. now right. }
    assert (csrel S a1 P2 cs ts) as C2'.
    { apply (frame_csrel S S a a1 P1); [exact F1|exact IN|auto| | |exact C2].
      - intros k K. apply AP, in_app_iff. now left.
      - intros k K. split; [apply AP, in_app_iff; now right|]. intros J. eauto. }
    destruct (IH a1 P2 ts C2' b1 ts1 b2 IN1 AP2 PMS) as (cs1 & a2 & -> & F2 & L2 & R2). cbn [bind].
    eexists _, a2. split; [reflexivity|]. split; [|split; [congruence|]].
    + eapply frame_trans; [exact F1|exact F2|]. intros k [K|K] _; apply in_app_iff; auto.
    + apply Forall2_app.
      * assert (orel (fun k => S k \/ In k (P1 ++ P2)) a2 o' o) as OR.
        { apply (orel_frame (fun k => S k \/ In k P1) _ a1 a2 P2 o' o); [exact F2| | | |exact R1].
          - intros k [K|K]; [auto|]. rewrite L1. apply AP, in_app_iff. now left.
          - intros k [K|K]; [now left|]. right. apply in_app_iff. now left.
          - intros k K [J|J]; [|eauto]. destruct (AP k) as [_ NS]; [apply in_app_iff; now right|]. contradiction. }
        destruct o' as [[v1 i1]|], o as [[v2 t2]|]; cbn in OR; try contradiction; cbn; constructor; [|constructor]. exact OR.
      * eapply Forall2_impl_in; [exact R2|]. intros x y _ [E R]. split; [assumption|]. eapply sdec_frame; [|exact R].
        intros k [K|K]; (split; [|reflexivity]); [now left|right; apply in_app_iff; now right].
Qed.

Lemma csrel_shared S a cs : forall ts, Forall2 (srel S a) cs ts <-> csrel S a [] cs ts.
Proof.
  induction cs as [|[v i] cs IH]; intros ts; split; intros H.
  - inversion H; subst. constructor.
  - inversion H; subst. constructor.
  - inversion H as [|x [w t] ? ts' [E D] F]; subst. cbn in *. subst w. apply (cs_cons S a [] []); [now constructor|now apply IH].
  - inversion H as [|P Q c t cs' ts' C1 C2 E]; subst. apply app_eq_nil in E. destruct E as [-> ->]. inversion C1; subst. constructor; [now split|now apply IH].
Qed.
Lemma csrel_app S a cs : forall P Q ts cs' ts', csrel S a P cs ts -> csrel S a Q cs' ts' -> csrel S a (P ++ Q) (cs ++ cs') (ts ++ ts').
Proof.
  induction cs as [|c cs IH]; intros P Q ts cs' ts' H H'; inversion H as [|P1 P2 ? t ? ts1 C1 C2]; subst; [exact H'|].
  rewrite <- app_assoc. cbn. constructor; [assumption|]. now apply IH.
Qed.
Lemma bsrel_app S a bs : forall P Q ts bs' ts', bsrel S a P bs ts -> bsrel S a Q bs' ts' -> bsrel S a (P ++ Q) (bs ++ bs') (ts ++ ts').
Proof.
  induction bs as [|c bs IH]; intros P Q ts bs' ts' H H'; inversion H as [|P1 P2 ? t ? ts1 C1 C2]; subst; [exact H'|].
  rewrite <- app_assoc. cbn. constructor; [assumption|]. now apply IH.
Qed.
Lemma bsrel_one S a P b t : brel S a P b t -> bsrel S a P [b] [t].
Proof. intros H. rewrite <- (app_nil_r P). constructor; [assumption|constructor]. Qed.
Lemma bsrel_shared S a bs : forall ts, Forall2 (brel S a []) bs ts <-> bsrel S a [] bs ts.
Proof.
  induction bs as [|b bs IH]; intros ts; split; intros H.
  - inversion H; subst. constructor.
  - inversion H; subst. constructor.
  - inversion H as [|x t ? ts' D F]; subst. apply (bs_cons S a [] []); [assumption|now apply IH].
  - inversion H as [|P Q c t cs' ts' C1 C2 E]; subst. apply app_eq_nil in E. destruct E as [-> ->]. constructor; [assumption|now apply IH].
Qed.

Lemma nodup_app {A} (P Q : list A) : NoDup (P ++ Q) <-> NoDup P /\ NoDup Q /\ forall k, In k P -> ~ In k Q.
Proof.
  induction P as [|k P IH]; cbn.
  - split; [intros H; repeat split; auto; constructor|intros (_ & H & _); exact H].
  - rewrite !NoDup_cons_iff, in_app_iff, IH. split.
    + intros (N & A1 & A2 & A3). split; [tauto|]. split; [assumption|]. intros k' [<-|I]; [tauto|auto].
    + intros ((N & A1) & A2 & A3). split; [intros [I|I]; [tauto|]; apply (A3 k); auto|]. repeat split; auto.
Qed.
Lemma apart_app S a P Q : apart S a (P ++ Q) <-> apart S a P /\ apart S a Q /\ forall k, In k P -> ~ In k Q.
Proof.
  unfold apart. rewrite nodup_app. setoid_rewrite in_app_iff. split.
  - intros ((A1 & A2 & A3) & B). repeat split; auto; apply B; auto.
  - intros ((A1 & A2) & (B1 & B2) & C). repeat split; auto; destruct H; try (now apply A2); now apply B2.
Qed.
Lemma apart_frame S a a' P : length a <= length a' -> apart S a P -> apart S a' P.
Proof. intros L [N H]. split; [assumption|]. intros k K. destruct (H k K). split; [lia|assumption]. Qed.

Lemma move_all_refine S bs : forall a P ts, bsrel S a P bs ts -> forall ts', inside S a -> apart S a P -> pmove_all ts = Done ts' ->
  exists bs' a', move_all bs a = Done (bs', a') /\ frame P a a' /\ length a' = length a /\ Forall2 (brel (fun k => S k \/ In k P) a' []) bs' ts'.
Proof.
  induction bs as [|b bs IH]; intros a P ts0 C ts' IN AP M; inversion C as [|P1 P2 b' t bs' ts C1 C2]; subst; cbn [move_all pmove_all] in *.
  - injection M as <-. exists [], a. split; [reflexivity|]. split; [apply frame_refl|]. split; [reflexivity|constructor].
  - rewrite apart_app in AP. destruct AP as (AP1 & AP2 & DJ). unfold pmove_branch in M.
    destruct C1 as (E1 & E2 & E3 & E4 & C1). unfold move_unconditional_patterns.
    destruct (pmove_checks (checks t) (branch_body t)) as [[ct bt]| |] eqn:PM; try discriminate. cbn [bind] in M.
    destruct (move_checks_refine S _ a P1 _ C1 _ _ _ IN AP1 PM) as (cs & a1 & M1 & F1 & L1 & R1). rewrite E4, M1. cbn [bind].
    destruct (pmove_all ts) as [ts1| |] eqn:PA; try discriminate. cbn [bind] in M. injection M as <-.
    assert (inside S a1) as IN1 by (intros k SK; rewrite L1; auto).
    assert (bsrel S a1 P2 bs ts) as C2'.
    { apply (frame_bsrel S S a a1 P1); [exact F1|exact IN|auto| | |exact C2].
      - intros k K. now apply AP1.
      - intros k K. split; [now apply AP2|]. intros J. now apply (DJ k). }
    destruct (IH a1 P2 ts C2' ts1 IN1) as (bs1 & a2 & M2 & F2 & L2 & R2); [eapply apart_frame; [|exact AP2]; lia|exact PA|].
    rewrite M2. cbn [bind]. eexists _, a2. split; [reflexivity|]. split; [|split; [congruence|]].
    + eapply frame_trans; [exact F1|exact F2|]. intros k [K|K] _; apply in_app_iff; auto.
    + constructor.
      * repeat (split; [assumption||reflexivity|]). cbn. apply csrel_shared. eapply Forall2_impl_in; [exact R1|]. intros x y _ [E R]. split; [assumption|].
        apply (frame_sdec (fun k => S k \/ In k P1) _ a1 a2 P2); [exact F2| | | |exact R].
        -- intros k [K|K]; [auto|]. rewrite L1. now apply AP1.
        -- intros k [K|K]; [now left|]. right. apply in_app_iff. now left.
        -- intros k K [J|J]; [|now apply (DJ k)]. now apply (proj2 AP2 k).
      * eapply Forall2_impl_in; [exact R2|]. intros x y _ B. apply (frame_brel (fun k => S k \/ In k P2) _ a2 a2 []); [apply frame_refl| | | | |exact B].
        -- intros k [K|K]; [rewrite L2; auto|]. rewrite L2, L1. now apply AP2.
        -- intros k [K|K]; [now left|]. right. apply in_app_iff. now right.
        -- intros k [].
        -- intros k [].
Qed.

(** ** The choice of the pivot *)
Definition cols {P} (b : branch P) : list cvar := map fst (checks b).
Lemma csrel_cols S a P cs ts : csrel S a P cs ts -> map fst cs = map fst ts.
Proof. induction 1 as [|P Q c t cs ts C _ IH]; [reflexivity|]. cbn. rewrite IH. destruct C; reflexivity. Qed.
Lemma brel_cols S a P b t : brel S a P b t -> cols b = cols t.
Proof. intros (_ & _ & _ & _ & H). eapply csrel_cols. exact H. Qed.
Lemma references_cols {P} v (bs : list (branch P)) : references v bs = length (filter (fun w => same_variable w v) (flat_map cols bs)).
Proof.
  unfold references. induction bs as [|b bs IH]; [reflexivity|]. cbn [flat_map]. rewrite !filter_app, !app_length, IH. f_equal.
  unfold cols. induction (checks b) as [|c cs IHc]; [reflexivity|]. cbn. destruct (same_variable (fst c) v); cbn; auto.
Qed.
Lemma min_by_key_cols {P Q} env (bs : list (branch P)) (ts : list (branch Q)) : map cols bs = map cols ts ->
  forall cs ds v k, map fst cs = map fst ds -> min_by_key env bs v k cs = min_by_key env ts v k ds.
Proof.
  intros E. assert (forall v, key env bs v = key env ts v) as K.
  { intros v. unfold key. rewrite !references_cols, !flat_map_concat_map, E. reflexivity. }
  induction cs as [|c cs IH]; intros [|d ds] v k EC; try discriminate; [reflexivity|]. injection EC as E1 E2. cbn. rewrite K, E1.
  destruct (key env ts (fst d)); cbn; auto. destruct (key_lt a k); apply IH; assumption.
Qed.
Lemma find_pivot_cols {P Q} env (b : branch P) (t : branch Q) bs ts : cols b = cols t -> map cols bs = map cols ts ->
  find_pivot env b bs = find_pivot env t ts.
Proof.
  intros E1 E2. unfold find_pivot. unfold cols in E1. destruct (checks b) as [|c cs], (checks t) as [|d ds]; try discriminate; [reflexivity|].
  injection E1 as EC ES.
  assert (key env bs (fst c) = key env ts (fst d)) as K.
  { unfold key. rewrite !references_cols, !flat_map_concat_map, E2, EC. reflexivity. }
  rewrite K. destruct (key env ts (fst d)) as [k| |]; cbn; [|reflexivity|reflexivity]. rewrite EC, (min_by_key_cols env bs ts E2 cs ds _ _ ES). reflexivity.
Qed.

(** ** Splitting *)
Inductive chrel (S : pid -> Prop) (a : arena) : list pid -> list (check * list (branch pid)) -> list (check * list (branch tree)) -> Prop :=
  | ch_nil : chrel S a [] [] []
  | ch_cons P Q c bs ts cs ds : bsrel S a P bs ts -> chrel S a Q cs ds -> chrel S a (P ++ Q) ((c, bs) :: cs) ((c, ts) :: ds).
Definition sprel (S : pid -> Prop) (a : arena) (P : list pid) (s : splitter pid) (t : splitter tree) : Prop :=
  chrel S a P (choices s) (choices t) /\ bsrel S a [] (fallback s) (fallback t) /\ indices s = indices t /\ prefix_indices s = prefix_indices t.

Section FramesChoices.
  Context (S : pid -> Prop) (a a' : arena) (P : list pid).
  Context (F : frame P a a') (I : inside S a) (D : forall k, In k P -> ~ S k).
  Lemma frame_chrel Q cs ts : (forall k, In k Q -> k < length a /\ ~ In k P) -> chrel S a Q cs ts -> chrel S a' Q cs ts.
  Proof using All.
    intros H C. induction C as [|Q1 Q2 c bs ts cs ds C1 C2 IH]; constructor.
    - apply (frame_bsrel S S a a' P); auto. intros k J. apply H, in_app_iff. now left.
    - apply IH. intros k J. apply H, in_app_iff. now right.
  Qed.
  Lemma frame_sprel Q s t : (forall k, In k Q -> k < length a /\ ~ In k P) -> sprel S a Q s t -> sprel S a' Q s t.
  Proof using All.
    intros H (A1 & A2 & A3 & A4). split; [now apply frame_chrel|]. split; [|auto]. apply (frame_bsrel S S a a' P); auto. intros k [].
  Qed.
End FramesChoices.

Lemma chrel_app S a cs : forall P Q ts cs' ts', chrel S a P cs ts -> chrel S a Q cs' ts' -> chrel S a (P ++ Q) (cs ++ cs') (ts ++ ts').
Proof.
  induction cs as [|c cs IH]; intros P Q ts cs' ts' H H'; inversion H as [|P1 P2 ? ? ? ? ts1 C1 C2]; subst; [exact H'|].
  rewrite <- app_assoc. cbn. constructor; [assumption|]. now apply IH.
Qed.
Lemma chrel_length S a P cs ts : chrel S a P cs ts -> length cs = length ts.
Proof. induction 1; cbn; auto. Qed.
Lemma chrel_nth S a P cs ts : chrel S a P cs ts -> forall i, 
  match nth_error cs i, nth_error ts i with
  | Some (c, bs), Some (d, us) => c = d /\ map guard bs = map guard us
  | None, None => True
  | _, _ => False
  end.
Proof.
  induction 1 as [|P Q c bs ts cs ds B _ IH]; intros [|i]; cbn; auto; [|exact (IH i)]. split; [reflexivity|]. clear IH.
  induction B as [|P1 P2 b t bs ts (E1 & E2 & E3 & _) _ IHB]; [reflexivity|]. cbn. now rewrite E3, IHB.
Qed.
Lemma chrel_push S a cs : forall P Q ts i b t, chrel S a P cs ts -> brel S a Q b t -> i < length cs ->
  exists R, Permutation R (P ++ Q) /\ chrel S a R (push_choice i b cs) (push_choice i t ts).
Proof.
  induction cs as [|c cs IH]; intros P Q ts i b t H B L; [cbn in L; lia|]. inversion H as [|P1 P2 c' bs us cs' ds C1 C2]; subst. destruct i as [|i]; cbn.
  - exists ((P1 ++ Q) ++ P2). split.
    + rewrite <- !app_assoc. apply Permutation_app_head, Permutation_app_comm.
    + constructor; [|assumption]. apply bsrel_app; [assumption|]. now apply bsrel_one.
  - cbn in L. destruct (IH P2 Q ds i b t C2 B) as (R & PR & CR); [lia|]. exists (P1 ++ R). split.
    + rewrite <- app_assoc. now apply Permutation_app_head.
    + now constructor.
Qed.
Lemma chrel_push_all S a b t : brel S a [] b t -> forall P cs ts, chrel S a P cs ts ->
  chrel S a P (map (fun c => (fst c, snd c ++ [b])) cs) (map (fun c => (fst c, snd c ++ [t])) ts).
Proof.
  intros B P cs ts C. induction C as [|P Q c bs us cs ds C1 C2 IH]; cbn; constructor; [|assumption].
  rewrite <- (app_nil_r P). apply bsrel_app; [assumption|]. now apply bsrel_one.
Qed.
Lemma chrel_update S a f : forall P cs ts, chrel S a P cs ts -> forall i, chrel S a P (update_choice f i cs) (update_choice f i ts).
Proof.
  intros P cs ts C. induction C as [|P Q c bs us cs ds C1 C2 IH]; intros i; destruct i; cbn; constructor; auto.
Qed.
Lemma chrel_names S a f is : forall P cs ts, chrel S a P cs ts ->
  chrel S a P (fold_left (fun cs i => update_choice f i cs) is cs) (fold_left (fun cs i => update_choice f i cs) is ts).
Proof. induction is as [|i is IH]; intros P cs ts C; cbn; [assumption|]. now apply IH, chrel_update. Qed.
Lemma apart_perm S a P Q : Permutation P Q -> apart S a P -> apart S a Q.
Proof. intros E [N H]. split; [eapply Permutation_NoDup; eassumption|]. intros k K. apply H. eapply Permutation_in; [symmetry; exact E|exact K]. Qed.

Lemma binding_guards {P Q} (bs : list (branch P)) (us : list (branch Q)) : map guard bs = map guard us ->
  existsb has_binding_guard bs = existsb has_binding_guard us.
Proof.
  revert us. induction bs as [|b bs IH]; intros [|u us] E; try discriminate; [reflexivity|]. injection E as E1 E2. cbn. unfold has_binding_guard at 1 3. now rewrite E1, (IH us E2).
Qed.
Lemma check_overlaps_eq S a P s t k : sprel S a P s t -> check_overlaps s k = check_overlaps t k.
Proof.
  intros (C & _ & E1 & E2).
  assert (forall i, choice_has_guard_using_pattern_bindings s i = choice_has_guard_using_pattern_bindings t i) as G.
  { intros i. unfold choice_has_guard_using_pattern_bindings. pose proof (chrel_nth _ _ _ _ _ C i) as H.
    destruct (nth_error (choices s) i) as [[c bs]|], (nth_error (choices t) i) as [[d us]|]; try contradiction; [|reflexivity]. now apply binding_guards. }
  unfold check_overlaps. rewrite E1, E2. destruct k; try reflexivity.
  destruct (get_ancestor prefix (prefix_indices t)); f_equal; f_equal; apply filter_ext; intros e; rewrite G; reflexivity.
Qed.

(** The new checks of a branch: what is allocated is new. *)
Definition fresh (a : arena) (P : list pid) : Prop := forall k, In k P -> length a <= k.
Lemma frame_nil_fresh a a' P : frame [] a a' -> fresh a P -> frame P a a'.
Proof. intros [L F] _. split; [assumption|]. intros k LK _. apply F; auto. Qed.
Definition extended (S : pid -> Prop) (a a' : arena) (P : list pid) : Prop := frame [] a a' /\ apart S a' P /\ fresh a P.
Lemma extended_refl S a : extended S a a [].
Proof. split; [apply frame_refl|]. split; [split; [constructor|intros k []]|intros k []]. Qed.
Lemma extended_alloc S a p : inside S a -> extended S a (a ++ [p]) [length a].
Proof.
  intros I. split; [apply frame_app|]. split.
  - split; [constructor; [intros []|constructor]|]. intros k [<-|[]]. rewrite app_length. cbn. split; [lia|]. intros SK. apply I in SK. lia.
  - intros k [<-|[]]. lia.
Qed.
Lemma udec_alloc S a p q : inside S a -> (forall n k, p <> AAssign n k) -> prel (sdec S a) p q -> udec S (a ++ [p]) (length a) (T q) (length a).
Proof.
  intros I N P. eapply udec_here; [rewrite nth_error_app2, Nat.sub_diag by lia; reflexivity|assumption|].
  eapply prel_mono; [|exact P]. intros x y. apply (frame_sdec S S a (a ++ [p]) []); auto. apply frame_app.
Qed.
Lemma srel_combine S a vs rs ts : Forall2 (sdec S a) rs ts -> Forall2 (srel S a) (combine vs rs) (combine vs ts).
Proof. intros F. revert vs. induction F; intros [|v vs]; cbn; constructor; [now split|auto]. Qed.

Lemma new_checks_refine S a v p q c ts : inside S a -> prel (sdec S a) p q -> pnew_checks v q c = Done ts ->
  exists cs a' P, new_checks v p c a = Done (cs, a') /\ extended S a a' P /\ csrel S a' P cs ts.
Proof.
  intros IN R H.
  assert (forall cs ts', Forall2 (srel S a) cs ts' -> Done ts' = Done ts -> exists cs' a' P, Done (cs, a) = Done (cs', a') /\ extended S a a' P /\ csrel S a' P cs' ts) as NONE.
  { intros cs ts' F [= <-]. exists cs, a, []. split; [reflexivity|]. split; [apply extended_refl|]. now apply csrel_shared. }
  assert (forall w p' q', (forall n k, p' <> AAssign n k) -> prel (sdec S a) p' q' -> Done [(w, T q')] = Done ts ->
    exists cs' a' P, Done ([(w, length a)], a ++ [p']) = Done (cs', a') /\ extended S a a' P /\ csrel S a' P cs' ts) as ONE.
  { intros w p' q' N P [= <-]. exists [(w, length a)], (a ++ [p']), ([length a] ++ []). split; [reflexivity|]. split; [now apply extended_alloc|].
    constructor; [|constructor]. constructor. now apply udec_alloc. }
  destruct R as [|z|f|s|s n r t R|s x y|n r t R|n|rs us F|j u n m rs us F|x r t1 t2 R1 R2| |tests]; cbn [pnew_checks new_checks] in *;
    try discriminate; try (apply (NONE [] []); [constructor|assumption]); try (destruct c; discriminate).
  - destruct c; try discriminate.
    + apply (NONE [] []); [constructor|assumption].
    + unfold alloc. eapply ONE; [discriminate| |exact H]. constructor.
  - destruct c as [| | |pre rest| | | | |]; try discriminate. destruct (strip_prefix pre s) as [[|x rem]|] eqn:SP.
    + apply (NONE [(rest, r)] [(rest, t)]); [|assumption]. constructor; [now split|constructor].
    + unfold alloc. apply (ONE rest (AStringPrefix (x :: rem) None r) (AStringPrefix (x :: rem) None t)); [discriminate|now constructor|assumption].
    + inversion R as [r' pr qr SI N ST O PR]; subst. rewrite N. cbn [un] in H. unfold alloc.
      destruct PR; destruct n as [n|]; try discriminate; try (apply (NONE [] []); [constructor|assumption]).
      * eapply ONE; [discriminate| |exact H]. constructor.
      * eapply ONE; [discriminate| |exact H]. constructor.
      * eapply ONE; [discriminate| |exact H]. constructor.
  - destruct c; try discriminate. eapply NONE; [|exact H]. now apply srel_combine.
  - destruct c; try discriminate. eapply NONE; [|exact H]. now apply srel_combine.
  - destruct c; try discriminate. eapply NONE; [|exact H]. constructor; [now split|]. constructor; [now split|constructor].
Qed.

(** The arena has grown, and the private nodes with it. *)
Definition grown (S : pid -> Prop) (a : arena) (P : list pid) (a' : arena) (P' : list pid) : Prop :=
  frame [] a a' /\ apart S a' P' /\ forall k, In k P' -> In k P \/ length a <= k.
Lemma grown_refl S a P : apart S a P -> grown S a P a P.
Proof. intros A. split; [apply frame_refl|]. split; auto. Qed.
Lemma grown_trans S a P b Q c R : grown S a P b Q -> grown S b Q c R -> grown S a P c R.
Proof.
  intros (F1 & A1 & H1) (F2 & A2 & H2). split; [eapply frame_trans; [exact F1|exact F2|]; intros k [[]|[]]|]. split; [assumption|].
  intros k K. destruct (H2 k K) as [J|J]; [auto|]. destruct F1. right. lia.
Qed.
Lemma grown_perm S a P b Q R : Permutation Q R -> grown S a P b Q -> grown S a P b R.
Proof.
  intros E (F & A & H). split; [assumption|]. split; [eapply apart_perm; eassumption|]. intros k K. apply H. eapply Permutation_in; [symmetry; exact E|exact K].
Qed.
Lemma grown_extended S a P a' Q : apart S a P -> extended S a a' Q -> grown S a P a' (P ++ Q).
Proof.
  intros A (F & B & N). split; [assumption|]. split.
  - rewrite apart_app. split; [|split; [assumption|]].
    + eapply apart_frame; [|exact A]. apply F.
    + intros k K J. apply (proj2 A) in K. apply N in J. lia.
  - intros k K. apply in_app_iff in K. destruct K as [K|K]; [now left|right]. now apply N.
Qed.
Lemma inside_frame S a a' P : inside S a -> frame P a a' -> inside S a'.
Proof. intros I [L _] k K. apply I in K. lia. Qed.

Lemma frame_nil_csrel S a a' P cs ts : frame [] a a' -> inside S a -> (forall k, In k P -> k < length a) -> csrel S a P cs ts -> csrel S a' P cs ts.
Proof. intros F I H. apply (frame_csrel S S a a' []); auto. Qed.
Lemma frame_nil_brel S a a' P b t : frame [] a a' -> inside S a -> (forall k, In k P -> k < length a) -> brel S a P b t -> brel S a' P b t.
Proof. intros F I H. apply (frame_brel S S a a' []); auto. Qed.
Lemma frame_nil_bsrel S a a' P b t : frame [] a a' -> inside S a -> (forall k, In k P -> k < length a) -> bsrel S a P b t -> bsrel S a' P b t.
Proof. intros F I H. apply (frame_bsrel S S a a' []); auto. Qed.
Lemma frame_nil_chrel S a a' P b t : frame [] a a' -> inside S a -> (forall k, In k P -> k < length a) -> chrel S a P b t -> chrel S a' P b t.
Proof. intros F I H. apply (frame_chrel S a a' []); auto. Qed.
Lemma brel_add S a P b t cs ts : brel S a [] b t -> csrel S a P cs ts -> brel S a P (add_checks b cs) (add_checks t ts).
Proof. intros (A1 & A2 & A3 & A4 & A5) C. repeat (split; [assumption|]). cbn. apply (csrel_app S a (checks b) [] P (checks t) cs ts A5 C). Qed.

Section Split.
  Context (S : pid -> Prop).

  Lemma add_to_choices_refine v i p q is : forall a P cs ds br tr ds',
    inside S a -> prel (sdec S a) p q -> apart S a P -> chrel S a P cs ds -> brel S a [] br tr ->
    padd_to_choices v q tr is ds = Done ds' ->
    exists cs' a' P', add_to_choices (v, i) p br is cs a = Done (cs', a') /\ grown S a P a' P' /\ chrel S a' P' cs' ds'.
  Proof.
    induction is as [|k is IH]; intros a P cs ds br tr ds' IN R AP C B H; cbn [padd_to_choices add_to_choices] in *.
    - injection H as <-. exists cs, a, P. split; [reflexivity|]. split; [now apply grown_refl|assumption].
    - pose proof (chrel_nth _ _ _ _ _ C k) as N. destruct (nth_error ds k) as [[d us]|] eqn:ND; [|discriminate].
      destruct (nth_error cs k) as [[c bs]|] eqn:NC; [|contradiction]. destruct N as [-> _].
      destruct (pnew_checks v q d) as [ts| |] eqn:PN; try discriminate. cbn [bind fst] in *.
      destruct (new_checks_refine S a v p q d ts IN R PN) as (new & a1 & Q & -> & EX & CS). cbn [bind].
      pose proof EX as (F1 & _ & _).
      assert (brel S a1 Q (add_checks br new) (add_checks tr ts)) as B1.
      { apply brel_add; [|assumption]. apply (frame_nil_brel S a a1); auto. intros ? []. }
      assert (chrel S a1 P cs ds) as C1.
      { apply (frame_nil_chrel S a a1); auto. intros j J. now apply AP. }
      destruct (chrel_push S a1 cs P Q ds k _ _ C1 B1) as (R1 & PR & CP); [apply nth_error_Some; congruence|].
      assert (grown S a P a1 R1) as G1.
      { eapply grown_perm; [symmetry; exact PR|]. now apply grown_extended. }
      assert (prel (sdec S a1) p q) as R' by (eapply prel_mono; [|exact R]; intros x y; apply (frame_sdec S S a a1 []); auto).
      assert (brel S a1 [] br tr) as B' by (apply (frame_nil_brel S a a1); auto; intros ? []).
      destruct (IH a1 R1 _ _ br tr ds' (inside_frame _ _ _ _ IN F1) R' (proj1 (proj2 G1)) CP B' H) as (cs' & a' & P' & E & G & CH).
      exists cs', a', P'. split; [assumption|]. split; [eapply grown_trans; eassumption|assumption].
  Qed.

  Lemma bits_refine v i ts br tr s t a P t' :
    inside S a -> apart S a P -> sprel S a P s t -> brel S a [] br tr -> sdec S a i (T (ABitArray ts)) ->
    padd_bits v ts tr t = Done t' ->
    exists s' a' P', add_checked_bit_array_branch (v, i) ts br s a = Done (s', a') /\ grown S a P a' P' /\ sprel S a' P' s' t'.
  Proof.
    intros IN AP SP B SD H. unfold padd_bits, add_checked_bit_array_branch in *.
    assert (exists pivot s1 t1,
      match choices s with
      | [] => match ts with [] => Panic | t :: _ => Done (t, with_choices s [(IsBitArray t, [])]) end
      | [(IsBitArray t, _)] => Done (t, s)
      | _ => Panic
      end = Done (pivot, s1) /\
      match choices t with
      | [] => match ts with [] => Panic | t0 :: _ => Done (t0, with_choices t [(IsBitArray t0, [])]) end
      | [(IsBitArray t0, _)] => Done (t0, t)
      | _ => Panic
      end = Done (pivot, t1) /\ sprel S a P s1 t1 /\ length (choices s1) = 1) as (pivot & s1 & t1 & E1 & E2 & SP1 & LS).
    { pose proof SP as SP0. destruct SP as (C & FB & I1 & I2). inversion C as [EP EC ET|P1 P2 c bs us cs ds C1 C2 EP EC ET].
      - rewrite <- ET in H. destruct ts as [|t0 ts]; [discriminate|]. eexists t0, _, _. split; [reflexivity|]. split; [reflexivity|]. split; [|reflexivity].
        split; [|auto]. cbn. apply (ch_cons S a [] []); constructor.
      - rewrite <- ET in H. inversion C2 as [EP' EC' ET'|]; subst cs ds; [|destruct c; discriminate]. destruct c; try discriminate.
        eexists _, s, t. split; [reflexivity|]. split; [reflexivity|]. split; [|rewrite <- EC; reflexivity]. rewrite EP', EP. exact SP0. }
    rewrite E1. rewrite E2 in H. cbn [bind fst] in *. clear E1 E2 SP s t.
    assert (exists s2 t2 a' P', (if existsb (fun t => fails_if_succeeding t pivot) ts then (s1, a)
        else let '(q, a) := alloc (ABitArray (filter (fun t => negb (succeeds_if_succeeding t pivot)) ts)) a in
             (with_choices s1 (push_choice 0 (add_checks br [(v, q)]) (choices s1)), a)) = (s2, a') /\
      (if existsb (fun t => fails_if_succeeding t pivot) ts then t1
       else with_choices t1 (push_choice 0 (add_checks tr [(v, T (ABitArray (filter (fun t => negb (succeeds_if_succeeding t pivot)) ts)))]) (choices t1))) = t2 /\
      grown S a P a' P' /\ sprel S a' P' s2 t2) as (s2 & t2 & a' & P' & E1 & E2 & G & SP2).
    { destruct (existsb (fun t => fails_if_succeeding t pivot) ts).
      - exists s1, t1, a, P. split; [reflexivity|]. split; [reflexivity|]. split; [now apply grown_refl|assumption].
      - unfold alloc. set (p := filter _ ts). destruct SP1 as (C & FB & I1 & I2).
        assert (frame [] a (a ++ [ABitArray p])) as F1 by apply frame_app.
        assert (brel S (a ++ [ABitArray p]) [length a] (add_checks br [(v, length a)]) (add_checks tr [(v, T (ABitArray p))])) as B1.
        { apply brel_add; [apply (frame_nil_brel S a _); auto; intros ? []|]. apply (cs_cons _ _ [length a] []); [|constructor]. constructor.
          apply udec_alloc; [assumption|discriminate|constructor]. }
        assert (chrel S (a ++ [ABitArray p]) P (choices s1) (choices t1)) as C1.
        { apply (frame_nil_chrel S a _); auto. intros j J. now apply AP. }
        destruct (chrel_push _ _ _ _ _ _ 0 _ _ C1 B1) as (R & PR & CP); [lia|].
        eexists _, _, _, R. split; [reflexivity|]. split; [reflexivity|]. split.
        + eapply grown_perm; [symmetry; exact PR|]. apply grown_extended; [assumption|]. now apply extended_alloc.
        + split; [exact CP|]. split; [|auto]. cbn. apply (frame_nil_bsrel S a _); auto. intros ? []. }
    rewrite E1. rewrite E2 in H. clear E1 E2. injection H as <-. eexists _, a', P'. split; [reflexivity|]. split; [assumption|].
    destruct (existsb (fun t => fails_if_failing t pivot) ts); [assumption|]. destruct SP2 as (C & FB & I1 & I2). split; [assumption|]. split; [|auto]. cbn.
    apply (bsrel_app S a' (fallback s2) [] []); [assumption|]. apply bsrel_one. apply brel_add.
    - apply (frame_nil_brel S a a'); [apply G|assumption|intros ? []|assumption].
    - apply (cs_cons _ _ [] []); [|constructor]. constructor. apply (frame_sdec S S a a' []); auto. apply G.
  Qed.

  Lemma to_kind_eq a p q : prel (sdec S a) p q -> to_runtime_check_kind p = to_runtime_check_kind q.
  Proof. intros R. destruct R; cbn; try reflexivity. do 2 f_equal. match goal with H : Forall2 _ _ _ |- _ => induction H; cbn; auto end. Qed.
  Lemma name_variants_refine a P p q is s t : prel (sdec S a) p q -> forall a', sprel S a' P s t -> sprel S a' P (name_variants p is s) (name_variants q is t).
  Proof.
    intros R a' SP. destruct R; cbn; auto. destruct SP as (C & FB & I1 & I2). split; [|auto]. cbn. now apply chrel_names.
  Qed.

  Lemma padd_other {v p tr m t x} : (forall ts, p <> ABitArray ts) -> padd_checked v p tr m t x =
    match to_runtime_check_kind p with
    | None => Panic
    | Some k =>
        let '(overlapping, needs_new_choice) := check_overlaps t k in
        let* cs := padd_to_choices v p tr overlapping (choices t) in
        let s := with_choices t cs in
        let* '(s, x) :=
          if needs_new_choice then
            let s := save_index_of_new_choice k s in
            let* '(c, x) := fresh_runtime_check k m x in
            let* new := pnew_checks v p c in
            Done (with_choices s (choices s ++ [(c, fallback s ++ [add_checks tr new])]), x)
          else Done (s, x) in
        Done (name_variants p overlapping s, x)
    end.
  Proof. intros H. destruct p; try reflexivity. exfalso. eapply H. reflexivity. Qed.
  Lemma add_other {v i p br m s x a} : (forall ts, p <> ABitArray ts) ->
    match p with
    | ABitArray ts => let* '(s, a) := add_checked_bit_array_branch (v, i) ts br s a in Done (s, State a x)
    | p =>
        match to_runtime_check_kind p with
        | None => Panic
        | Some k =>
            let '(overlapping, needs_new_choice) := check_overlaps s k in
            let* '(cs, a) := add_to_choices (v, i) p br overlapping (choices s) a in
            let s := with_choices s cs in
            let* '(s, st) :=
              if needs_new_choice then
                let s := save_index_of_new_choice k s in
                let* '(c, x) := fresh_runtime_check k m x in
                let* '(new, a) := new_checks v p c a in
                Done (with_choices s (choices s ++ [(c, fallback s ++ [add_checks br new])]), State a x)
              else Done (s, State a x) in
            Done (name_variants p overlapping s, st)
        end
    end = 
    match to_runtime_check_kind p with
    | None => Panic
    | Some k =>
        let '(overlapping, needs_new_choice) := check_overlaps s k in
        let* '(cs, a) := add_to_choices (v, i) p br overlapping (choices s) a in
        let s := with_choices s cs in
        let* '(s, st) :=
          if needs_new_choice then
            let s := save_index_of_new_choice k s in
            let* '(c, x) := fresh_runtime_check k m x in
            let* '(new, a) := new_checks v p c a in
            Done (with_choices s (choices s ++ [(c, fallback s ++ [add_checks br new])]), State a x)
          else Done (s, State a x) in
        Done (name_variants p overlapping s, st)
    end.
  Proof. intros H. destruct p; try reflexivity. exfalso. eapply H. reflexivity. Qed.

  Lemma add_checked_refine v i p br tr m s t x a P t' x' :
    inside S a -> apart S a P -> sprel S a P s t -> brel S a [] br tr -> sdec S a i (T p) ->
    padd_checked v p tr m t x = Done (t', x') ->
    exists s' a' P', add_checked_branch (v, i) br m s (State a x) = Done (s', State a' x') /\ grown S a P a' P' /\ sprel S a' P' s' t'.
  Proof.
    intros IN AP SP B SD H. inversion SD as [i' p0 q SI N ST O R]; subst. unfold add_checked_branch. cbn [patterns snd ctx]. rewrite N.
    assert ((exists ts, p0 = ABitArray ts /\ p = ABitArray ts) \/
      (forall ts, p <> ABitArray ts)) as KIND.
    { destruct R; [right; discriminate..|left; eauto]. }
    destruct KIND as [(ts & -> & ->)|OTHER].
    - cbn [padd_checked] in H. destruct (padd_bits v ts tr t) as [t1| |] eqn:PB; try discriminate. cbn [bind] in H. injection H as <- <-.
      destruct (bits_refine v i ts br tr s t a P t1 IN AP SP B SD PB) as (s' & a' & P' & -> & G & SP'). cbn [bind].
      exists s', a', P'. auto.
    - rewrite (padd_other OTHER) in H. cbn [fst ctx]. rewrite add_other by (destruct R; try discriminate; exfalso; eapply OTHER; reflexivity).
      rewrite (to_kind_eq a p0 p R). destruct (to_runtime_check_kind p) as [k|]; [|discriminate].
      rewrite (check_overlaps_eq S a P s t k SP). destruct (check_overlaps t k) as [is nn].
      destruct (padd_to_choices v p tr is (choices t)) as [ds| |] eqn:PA; try discriminate. cbn [bind] in H.
      destruct SP as (C & FB & I1 & I2).
      destruct (add_to_choices_refine v i p0 p is a P _ _ br tr ds IN R AP C B PA) as (cs & a1 & P1 & -> & G1 & C1). cbn [bind].
      assert (inside S a1) as IN1 by (eapply inside_frame; [exact IN|apply G1]).
      assert (bsrel S a1 [] (fallback s) (fallback t)) as FB1.
      { apply (frame_nil_bsrel S a a1); [apply G1|assumption|intros ? []|assumption]. }
      assert (brel S a1 [] br tr) as B1.
      { apply (frame_nil_brel S a a1); [apply G1|assumption|intros ? []|assumption]. }
      assert (prel (sdec S a1) p0 p) as R1.
      { eapply prel_mono; [|exact R]. intros y z. apply (frame_sdec S S a a1 []); auto. apply G1. }
      destruct nn.
      + destruct (fresh_runtime_check k m x) as [[c x1]| |]; try discriminate. cbn [bind] in *.
        destruct (pnew_checks v p c) as [new| |] eqn:PN; try discriminate. cbn [bind] in H. injection H as <- <-.
        destruct (new_checks_refine S a1 v p0 p c new IN1 R1 PN) as (new' & a2 & Q & -> & EX & CS). cbn [bind].
        eexists _, a2, (P1 ++ Q). split; [reflexivity|]. split; [eapply grown_trans; [exact G1|]; apply grown_extended; [apply G1|assumption]|].
        apply (name_variants_refine a1); [assumption|]. pose proof EX as (F2 & _ & _).
        assert (bsrel S a2 [] (fallback s) (fallback t)) as FB2 by (apply (frame_nil_bsrel S a1 a2); auto; intros ? []).
        assert (chrel S a2 (P1 ++ Q) (cs ++ [(c, fallback s ++ [add_checks br new'])]) (ds ++ [(c, fallback t ++ [add_checks tr new])])) as C2.
        { apply chrel_app; [apply (frame_nil_chrel S a1 a2); auto; intros j J; now apply G1|].
          rewrite <- (app_nil_r Q). constructor; [|constructor]. apply (bsrel_app S a2 (fallback s) [] Q); [assumption|].
          apply bsrel_one, brel_add; [|assumption]. apply (frame_nil_brel S a1 a2); auto; intros ? []. }
        pose proof (chrel_length _ _ _ _ _ C1) as LC.
        unfold save_index_of_new_choice. destruct k; (split; [exact C2|]); (split; [exact FB2|]); cbn; rewrite ?LC, ?I1, ?I2; auto.
      + cbn [bind] in *. injection H as <- <-. eexists _, a1, P1. split; [reflexivity|]. split; [assumption|].
        apply (name_variants_refine a1); [assumption|]. split; [assumption|]. auto.
  Qed.

  Lemma pop_refine a cs : forall ts v, Forall2 (srel S a) cs ts ->
    match pop_check v cs, pop_check v ts with
    | None, None => True
    | Some (c, cs'), Some (t, ts') => srel S a c t /\ Forall2 (srel S a) cs' ts'
    | _, _ => False
    end.
  Proof.
    induction cs as [|c cs IH]; intros ts v F; inversion F as [|? t ? ts' R F']; subst; cbn; [exact I|]. destruct R as [E R]. rewrite E.
    destruct (same_variable (fst t) v); [split; [now split|assumption]|]. specialize (IH ts' v F').
    destruct (pop_check v cs) as [[c1 cs1]|], (pop_check v ts') as [[t1 ts1]|]; try contradiction; auto. destruct IH. split; [assumption|]. constructor; [now split|assumption].
  Qed.

  Lemma split_refine pivot m bs : forall ts s t x a P t' x',
    inside S a -> apart S a P -> sprel S a P s t -> Forall2 (brel S a []) bs ts ->
    psplit pivot m ts t x = Done (t', x') ->
    exists s' a' P', split_branches pivot m bs s (State a x) = Done (s', State a' x') /\ grown S a P a' P' /\ sprel S a' P' s' t'.
  Proof.
    induction bs as [|b bs IH]; intros ts s t x a P t' x' IN AP SP F H; inversion F as [|? u ? us B F']; subst; cbn [psplit split_branches] in *.
    - injection H as <- <-. exists s, a, P. split; [reflexivity|]. split; [now apply grown_refl|assumption].
    - pose proof B as (E1 & E2 & E3 & E4 & C). apply csrel_shared in C. pose proof (pop_refine a _ _ pivot C) as PR.
      destruct (pop_check pivot (checks b)) as [[[v i] cs]|], (pop_check pivot (checks u)) as [[[w [p]] ts]|]; try contradiction.
      + destruct PR as [[EV SD] FC]. cbn in EV, SD. subst w. cbn [patterns snd ctx]. pose proof SD as SD0. inversion SD as [i' p0 q SI N ST O R]; subst. rewrite N.
        assert (branch_id (with_checks b cs) = branch_id (with_checks u ts)) as BI by (unfold branch_id; cbn; congruence).
        replace (is_matching_on_unreachable_variant p0 m) with (is_matching_on_unreachable_variant p m) by (destruct R; reflexivity).
        replace (is_matching_on_impossible_segment p0) with (is_matching_on_impossible_segment p) by (destruct R; reflexivity).
        rewrite BI. destruct (is_matching_on_unreachable_variant p m); [exact (IH us s t _ a P t' x' IN AP SP F' H)|].
        destruct (is_matching_on_impossible_segment p); [exact (IH us s t _ a P t' x' IN AP SP F' H)|].
        destruct (padd_checked v p (with_checks u ts) m t x) as [[t1 x1]| |] eqn:PC; try discriminate. cbn [bind] in H.
        assert (brel S a [] (with_checks b cs) (with_checks u ts)) as B'.
        { repeat (split; [assumption|]). cbn. now apply csrel_shared. }
        destruct (add_checked_refine v i p _ _ m s t x a P t1 x1 IN AP SP B' SD0 PC) as (s1 & a1 & P1 & -> & G1 & SP1). cbn [bind].
        destruct (IH us s1 t1 x1 a1 P1 t' x') as (s' & a' & P' & E & G & SP'); auto.
        * eapply inside_frame; [exact IN|apply G1].
        * apply G1.
        * eapply Forall2_impl_in; [exact F'|]. intros y z _. apply (frame_nil_brel S a a1); [apply G1|assumption|intros ? []].
        * exists s', a', P'. split; [assumption|]. split; [eapply grown_trans; eassumption|assumption].
      + apply (IH us (add_fallback_branch b s) (add_fallback_branch u t) x a P t' x'); auto.
        destruct SP as (C' & FB & I1 & I2). split; [|split; [|auto]]; cbn.
        * now apply chrel_push_all.
        * apply (bsrel_app S a (fallback s) [] []); [assumption|]. now apply bsrel_one.
  Qed.
End Split.

(** ** What is left to choose from *)
Lemma chrel_checks S a P cs ds : chrel S a P cs ds -> map fst cs = map fst ds.
Proof. induction 1; cbn; congruence. Qed.
Lemma chrel_existsb S a P cs ds f : chrel S a P cs ds -> existsb (fun c => f (fst c)) cs = existsb (fun c => f (fst c)) ds.
Proof. induction 1 as [|P Q c bs ts cs ds B _ IH]; cbn; [reflexivity|]. now rewrite IH. Qed.
Lemma chrel_filter S a f P cs ds : chrel S a P cs ds -> exists P1 P2, Permutation P (P1 ++ P2) /\
  chrel S a P1 (filter (fun c => f (fst c)) cs) (filter (fun c => f (fst c)) ds).
Proof.
  induction 1 as [|P Q c bs ts cs ds B _ (Q1 & Q2 & PQ & IH)]; [exists [], []; split; constructor|]. cbn. destruct (f c).
  - exists (P ++ Q1), Q2. split; [rewrite <- app_assoc; now apply Permutation_app_head|]. now constructor.
  - exists Q1, (P ++ Q2). split; [|assumption]. rewrite PQ. apply Permutation_app_swap_app.
Qed.
Lemma chrel_rev S a P cs ds : chrel S a P cs ds -> exists R, Permutation P R /\ chrel S a R (rev cs) (rev ds).
Proof.
  induction 1 as [|P Q c bs ts cs ds B _ (R & PR & IH)]; [exists []; split; constructor|]. cbn. exists (R ++ P). split.
  - rewrite PR. apply Permutation_app_comm.
  - apply chrel_app; [assumption|]. rewrite <- (app_nil_r P). constructor; [assumption|constructor].
Qed.
Lemma chrel_filter_checks S a f P cs ds : chrel S a P cs ds -> map fst (filter (fun c => f (fst c)) cs) = map fst (filter (fun c => f (fst c)) ds).
Proof. induction 1 as [|P Q c bs ts cs ds B _ IH]; cbn; [reflexivity|]. destruct (f c); cbn; now rewrite IH. Qed.

Lemma parts_refine S a P s t ds fb fc : sprel S a P s t -> exhaustive_parts t = Done (ds, fb, fc) ->
  exists cs gb P1 P2 P3, exhaustive_parts s = Done (cs, gb, fc) /\ Permutation P ((P1 ++ P2) ++ P3) /\ chrel S a P1 cs ds /\ bsrel S a P2 gb fb.
Proof.
  intros (C & FB & _ & _) H. unfold exhaustive_parts in *. rewrite (chrel_existsb S a P _ _ is_ignored C).
  destruct (existsb (fun c => is_ignored (fst c)) (choices t)).
  - injection H as <- <- <-. rewrite (chrel_filter_checks S a is_ignored P _ _ C).
    destruct (chrel_filter S a (fun c => negb (is_ignored c)) P _ _ C) as (P1 & P2 & PP & C1).
    eexists _, _, P1, [], P2. split; [reflexivity|]. rewrite app_nil_r. auto.
  - destruct (chrel_rev S a P _ _ C) as (R & PR & CR). destruct CR as [|P1 P2 c bs ts cs ds' B C']; [discriminate|]. injection H as <- <- <-.
    destruct (chrel_rev S a P2 _ _ C') as (R2 & PR2 & CR2). eexists _, _, R2, P1, []. split; [reflexivity|]. split; [|auto].
    rewrite app_nil_r, PR, PR2. apply Permutation_app_comm.
Qed.

(** ** The compiler *)
Section Refine.
  Context (env : environment).

  Definition refines (cc : list (branch pid) -> state -> out (decision * state)) (pc : list (branch tree) -> context -> out (decision * context)) : Prop :=
    forall S a P bs ts x d x', inside S a -> apart S a P -> bsrel S a P bs ts -> pc ts x = Done (d, x') ->
    exists a', cc bs (State a x) = Done (d, State a' x') /\ frame P a a'.

  Lemma frame_disjoint S a a' P Q bs ts : inside S a -> apart S a (P ++ Q) -> frame P a a' -> bsrel S a Q bs ts -> bsrel S a' Q bs ts.
  Proof.
    intros IN AP F B. rewrite apart_app in AP. destruct AP as (A1 & A2 & DJ). apply (frame_bsrel S S a a' P); auto.
    - intros k K. now apply A1.
    - intros k K. split; [now apply A2|]. intros J. now apply (DJ k).
  Qed.
  Lemma frame_disjoint_ch S a a' P Q bs ts : inside S a -> apart S a (P ++ Q) -> frame P a a' -> chrel S a Q bs ts -> chrel S a' Q bs ts.
  Proof.
    intros IN AP F B. rewrite apart_app in AP. destruct AP as (A1 & A2 & DJ). apply (frame_chrel S a a' P); auto.
    - intros k K. now apply A1.
    - intros k K. split; [now apply A2|]. intros J. now apply (DJ k).
  Qed.
  Lemma apart_right S a a' P Q : apart S a (P ++ Q) -> frame P a a' -> apart S a' Q.
  Proof. intros AP [L _]. rewrite apart_app in AP. destruct AP as (_ & A2 & _). eapply apart_frame; eassumption. Qed.
  Lemma frame_seq P Q a b c : frame P a b -> frame Q b c -> frame (P ++ Q) a c.
  Proof. intros F1 F2. eapply frame_trans; [exact F1|exact F2|]. intros k [K|K] _; apply in_app_iff; auto. Qed.

  Lemma choices_refine cc pc : refines cc pc -> forall S cs a P ds x r x', inside S a -> apart S a P -> chrel S a P cs ds ->
    compile_all_choices pc ds x = Done (r, x') -> exists a', compile_all_choices cc cs (State a x) = Done (r, State a' x') /\ frame P a a'.
  Proof.
    intros R S. induction cs as [|[c bs] cs IH]; intros a P ds0 x r x' IN AP C H; inversion C as [|P1 P2 ? ? ts ? ds B C']; subst; cbn [compile_all_choices] in *.
    - injection H as <- <-. exists a. split; [reflexivity|apply frame_refl].
    - destruct (pc ts x) as [[d x1]| |] eqn:PC; try discriminate. cbn [bind] in H.
      destruct (R S a P1 bs ts x d x1) as (a1 & -> & F1); auto; [rewrite apart_app in AP; apply AP|]. cbn [bind].
      destruct (compile_all_choices pc ds x1) as [[rs x2]| |] eqn:PA; try discriminate. cbn [bind] in H. injection H as <- <-.
      destruct (IH a1 P2 ds x1 rs x2) as (a2 & -> & F2); auto.
      + eapply inside_frame; eassumption.
      + eapply apart_right; eassumption.
      + eapply frame_disjoint_ch; eassumption.
      + cbn [bind]. exists a2. split; [reflexivity|]. now apply (frame_seq P1 P2 a a1 a2).
  Qed.
  Lemma switch_refine cc pc : refines cc pc -> forall S pivot cs fb a P1 P2 ds gb fc x r x', inside S a -> apart S a (P1 ++ P2) ->
    chrel S a P1 cs ds -> bsrel S a P2 fb gb -> compile_switch pc pivot ds gb fc x = Done (r, x') ->
    exists a', compile_switch cc pivot cs fb fc (State a x) = Done (r, State a' x') /\ frame (P1 ++ P2) a a'.
  Proof.
    intros R S pivot cs fb a P1 P2 ds gb fc x r x' IN AP C B H. unfold compile_switch in *.
    destruct (compile_all_choices pc ds x) as [[rs x1]| |] eqn:PA; try discriminate. cbn [bind] in H.
    destruct (choices_refine cc pc R S cs a P1 ds x rs x1) as (a1 & -> & F1); auto; [rewrite apart_app in AP; apply AP|]. cbn [bind].
    destruct (pc gb x1) as [[d x2]| |] eqn:PC; try discriminate. cbn [bind] in H. injection H as <- <-.
    destruct (R S a1 P2 fb gb x1 d x2) as (a2 & -> & F2); auto.
    - eapply inside_frame; eassumption.
    - eapply apart_right; eassumption.
    - eapply frame_disjoint; eassumption.
    - cbn [bind]. exists a2. split; [reflexivity|]. now apply (frame_seq P1 P2 a a1 a2).
  Qed.

  Lemma from_checks_rel S a known : sprel S a [] (from_checks known) (from_checks known).
  Proof.
    split; [|split; [constructor|auto]]. cbn. induction (filter _ known) as [|c cs IH]; cbn; [constructor|]. apply (ch_cons S a [] []); [constructor|assumption].
  Qed.

  Lemma split_and_compile_refine cc pc : refines cc pc -> forall S a bs ts pivot x d x', inside S a -> Forall2 (brel S a []) bs ts ->
    psplit_and_compile env pc pivot ts x = Done (d, x') ->
    exists a', split_and_compile env cc pivot bs (State a x) = Done (d, State a' x') /\ frame [] a a'.
  Proof.
    intros R S a bs ts pivot x d x' IN B H. unfold psplit_and_compile, split_and_compile in *. cbn [ctx patterns].
    destruct (mode_of env (var_type pivot)) as [m| |]; try discriminate. cbn [bind] in *.
    destruct (known_checks m x) as [[known x1]| |]; try discriminate. cbn [bind] in *.
    destruct (psplit pivot m ts (from_checks known) x1) as [[t x2]| |] eqn:PS; try discriminate. cbn [bind] in H.
    assert (apart S a []) as AP0 by (split; [constructor|intros ? []]).
    destruct (split_refine S pivot m bs ts (from_checks known) (from_checks known) x1 a [] t x2 IN AP0 (from_checks_rel S a known) B PS)
      as (s & a1 & P & E & (F & AP & N) & SP). rewrite E. cbn [bind]. pose proof (inside_frame _ _ _ _ IN F) as IN1.
    assert (forall a2 Q, frame Q a1 a2 -> (forall k, In k Q -> In k P) -> frame [] a a2) as FINAL.
    { intros a2 Q F2 I. eapply frame_trans; [exact F|exact F2|]. intros k [[]|K] LK. destruct (N k (I k K)) as [[]|L]. lia. }
    assert (is_empty (choices s) = is_empty (choices t)) as EMP by (destruct SP as (C & _); destruct C; reflexivity).
    destruct (is_infinite m).
    - destruct SP as (C & FB & _). destruct (switch_refine cc pc R S pivot (choices s) (fallback s) a1 P [] (choices t) (fallback t) InfiniteCatchAll x2 d x') as (a2 & E2 & F2); auto.
      + rewrite app_nil_r. exact AP.
      + exists a2. split; [exact E2|]. apply (FINAL a2 (P ++ [])); [assumption|]. intros k. now rewrite app_nil_r.
    - rewrite EMP. destruct (is_empty (choices t)).
      + injection H as <- <-. exists a1. split; [reflexivity|assumption].
      + destruct (exhaustive_parts t) as [[[ds gb] fc]| |] eqn:EP; try discriminate. cbn [bind] in H.
        destruct (parts_refine S a1 P s t ds gb fc SP EP) as (cs & fb & P1 & P2 & P3 & -> & PP & C & B2). cbn [bind].
        assert (apart S a1 (P1 ++ P2)) as AP1.
        { apply (apart_perm S a1 _ _ PP) in AP. rewrite apart_app in AP. apply AP. }
        destruct (switch_refine cc pc R S pivot cs fb a1 P1 P2 ds gb fc x2 d x') as (a2 & E2 & F2); auto.
        exists a2. split; [exact E2|]. apply (FINAL a2 (P1 ++ P2)); [assumption|]. intros k K. eapply Permutation_in; [symmetry; exact PP|]. apply in_app_iff. now left.
  Qed.

  Lemma compile_refine fuel : refines (compile env fuel) (pcompile env fuel).
  Proof.
    induction fuel as [|fuel IH]; intros S a P bs ts x d x' IN AP B H; [discriminate|]. cbn [compile pcompile] in *. cbn [patterns ctx].
    destruct (pmove_all ts) as [ts1| |] eqn:PM; try discriminate. cbn [bind] in H.
    destruct (move_all_refine S bs a P ts B ts1 IN AP PM) as (bs1 & a1 & -> & F1 & L1 & R1). cbn [bind].
    set (S1 := fun k => S k \/ In k P) in *.
    assert (inside S1 a1) as IN1 by (intros k [K|K]; rewrite L1; [auto|now apply AP]).
    assert (forall a2, frame [] a1 a2 -> frame P a a2) as FINAL.
    { intros a2 F2. eapply frame_trans; [exact F1|exact F2|]. intros k [K|[]] _. exact K. }
    destruct R1 as [|b t bs1 ts1 BR R1].
    - injection H as <- <-. exists a1. split; [reflexivity|assumption].
    - pose proof BR as (E1 & E2 & E3 & E4 & C). assert (branch_id b = branch_id t) as BI by (unfold branch_id; congruence). rewrite BI.
      assert (map cols (b :: bs1) = map cols (t :: ts1)) as CO.
      { cbn. f_equal; [eapply brel_cols; exact BR|]. clear - R1. induction R1; cbn; [reflexivity|]. f_equal; [eapply brel_cols; eassumption|assumption]. }
      rewrite (find_pivot_cols env b t (b :: bs1) (t :: ts1)); [|eapply brel_cols; exact BR|exact CO].
      destruct (find_pivot env t (t :: ts1)) as [[v|]| |]; try discriminate; cbn [bind] in *.
      + destruct (split_and_compile_refine _ _ IH S1 a1 (b :: bs1) (t :: ts1) v _ d x' IN1 (Forall2_cons _ _ BR R1) H) as (a2 & E & F2).
        exists a2. split; [exact E|now apply FINAL].
      + rewrite E3. destruct (guard t) as [g|].
        * destruct (pcompile env fuel ts1 (mark_as_reached (branch_id t) x)) as [[d1 x1]| |] eqn:PC; try discriminate. cbn [bind] in H. injection H as <- <-.
          assert (apart S1 a1 []) as AP1 by (split; [constructor|intros ? []]).
          destruct (IH S1 a1 [] bs1 ts1 _ d1 x1 IN1 AP1 (proj1 (bsrel_shared S1 a1 bs1 ts1) R1) PC) as (a2 & -> & F2).
          cbn [bind]. exists a2. rewrite E4. split; [reflexivity|now apply FINAL].
        * injection H as <- <-. exists a1. rewrite E4. split; [reflexivity|assumption].
  Qed.
End Refine.
