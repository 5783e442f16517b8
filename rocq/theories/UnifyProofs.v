(** Proofs about unification. *)
From Coq Require Import NArith Arith Bool List Lia.
From Verif Require Import Text TextProofs Unify UnifySpec.
Import ListNotations.
Local Open Scope nat_scope.

(** ** Induction *)
Section TypeInd.
Context (P : type -> Prop).
Context (Hn : forall d m n l v, Forall P l -> P (Named d m n l v)) (Hf : forall l r, Forall P l -> P r -> P (Fn l r))
  (Ht : forall l, Forall P l -> P (Tuple l)) (Hv : forall c, P (Var c)).
Fixpoint type_ind' (t : type) : P t :=
  let all := fix all l : Forall P l := match l with [] => Forall_nil _ | t :: l => Forall_cons t (type_ind' t) (all l) end in
  match t with
  | Named d m n l v => Hn d m n l v (all l)
  | Fn l r => Hf l r (all l) (type_ind' r)
  | Tuple l => Ht l (all l)
  | Var c => Hv c
  end.
End TypeInd.
Section TermInd.
Context (P : term -> Prop).
Context (Hv : forall i, P (TVar i)) (Hg : forall i, P (TGeneric i)) (Hn : forall m n l, Forall P l -> P (TNamed m n l))
  (Hf : forall l r, Forall P l -> P r -> P (TFn l r)) (Ht : forall l, Forall P l -> P (TTuple l)).
Fixpoint term_ind' (t : term) : P t :=
  let all := fix all l : Forall P l := match l with [] => Forall_nil _ | t :: l => Forall_cons t (term_ind' t) (all l) end in
  match t with
  | TVar i => Hv i
  | TGeneric i => Hg i
  | TNamed m n l => Hn m n l (all l)
  | TFn l r => Hf l r (all l) (term_ind' r)
  | TTuple l => Ht l (all l)
  end.
End TermInd.
Section ResolvesInd.
Context (st : store) (P : type -> term -> Prop).
Context (Hu : forall c id, nth_error st c = Some (Unbound id) -> P (Var c) (TVar id))
  (Hg : forall c id, nth_error st c = Some (Generic id) -> P (Var c) (TGeneric id))
  (Hl : forall c t u, nth_error st c = Some (Link t) -> resolves st t u -> P t u -> P (Var c) u)
  (Hn : forall d m n l v us, Forall2 (resolves st) l us -> Forall2 P l us -> P (Named d m n l v) (TNamed m n us))
  (Hf : forall l r us u, Forall2 (resolves st) l us -> Forall2 P l us -> resolves st r u -> P r u -> P (Fn l r) (TFn us u))
  (Ht : forall l us, Forall2 (resolves st) l us -> Forall2 P l us -> P (Tuple l) (TTuple us)).
Fixpoint resolves_ind' t u (R : resolves st t u) : P t u :=
  let all := fix all l us (R : Forall2 (resolves st) l us) : Forall2 P l us :=
    match R with Forall2_nil _ => Forall2_nil _ | Forall2_cons _ _ H R => Forall2_cons _ _ (resolves_ind' _ _ H) (all _ _ R) end in
  match R with
  | resolves_unbound _ c id H => Hu c id H
  | resolves_generic _ c id H => Hg c id H
  | resolves_link _ c t u H R => Hl c t u H R (resolves_ind' _ _ R)
  | resolves_named _ d m n l v us R => Hn d m n l v us R (all _ _ R)
  | resolves_fn _ l r us u R R' => Hf l r us u R (all _ _ R) R' (resolves_ind' _ _ R')
  | resolves_tuple _ l us R => Ht l us R (all _ _ R)
  end.
End ResolvesInd.

(** ** Lists and stores *)
Lemma Forall2_imp {A B} (P Q : A -> B -> Prop) l l' : (forall a b, P a b -> Q a b) -> Forall2 P l l' -> Forall2 Q l l'.
Proof. intros H. induction 1; constructor; auto. Qed.
Lemma Forall2_and {A B} (P Q : A -> B -> Prop) l l' : Forall2 P l l' -> Forall2 Q l l' -> Forall2 (fun a b => P a b /\ Q a b) l l'.
Proof. induction 1; intros H'; inversion H'; subst; constructor; auto. Qed.
Lemma Forall2_det {A B} (P Q : A -> B -> Prop) l us : Forall2 (fun a b => forall c, P a c -> c = b) l us -> forall vs, Forall2 P l vs -> vs = us.
Proof. induction 1; intros vs H'; inversion H'; subst; [reflexivity|]. f_equal; auto. Qed.
Lemma Forall2_map_r {A B C} (P : A -> C -> Prop) (f : B -> C) l us : Forall2 (fun a b => P a (f b)) l us -> Forall2 P l (map f us).
Proof. induction 1; constructor; auto. Qed.
Lemma Forall2_in_l {A B} (P : A -> B -> Prop) l l' : Forall2 P l l' -> forall a, In a l -> exists b, In b l' /\ P a b.
Proof. induction 1 as [|x y l l' H _ IH]; intros z Hin; [destruct Hin|]. destruct Hin as [->|Hin]; [exists y; split; [left; reflexivity|exact H]|]. destruct (IH _ Hin) as (b & Hb & Pb). exists b. split; [right; exact Hb|exact Pb]. Qed.
Lemma mem_in c cs : mem c cs = true <-> In c cs.
Proof. unfold mem. rewrite existsb_exists. split; [intros (x & H & E); apply Nat.eqb_eq in E; subst; exact H|intros H; exists c; split; [exact H|apply Nat.eqb_refl]]. Qed.
Lemma set_length st c v : length (set st c v) = length st.
Proof. revert c. induction st as [|w st IH]; intros [|c]; cbn; auto. Qed.
Lemma set_get st c v d : nth_error (set st c v) d = if Nat.eqb d c then option_map (fun _ => v) (nth_error st c) else nth_error st d.
Proof.
  revert c d. induction st as [|w st IH]; intros [|c] [|d]; cbn; try reflexivity.
  - destruct (Nat.eqb d c); reflexivity.
  - apply IH.
Qed.
Lemma set_get_same st c v w : nth_error st c = Some w -> nth_error (set st c v) c = Some v.
Proof. intros H. rewrite set_get, Nat.eqb_refl, H. reflexivity. Qed.
Lemma set_get_other st c v d : d <> c -> nth_error (set st c v) d = nth_error st d.
Proof. intros H. rewrite set_get. apply Nat.eqb_neq in H. rewrite H. reflexivity. Qed.

(** ** Resolution *)
Lemma resolves_same st t u : resolves st t u -> forall v, resolves st t v -> v = u.
Proof.
  intros R. induction R as [c id H|c id H|c t u H R IH|d m n l v us R IH|l r us u R IH R' IH'|l us R IH] using resolves_ind'; intros w W;
    inversion W as [c2 id2 H2|c2 id2 H2|c2 t2 u2 H2 R2|d2 m2 n2 l2 v2 us2 R2|l2 r2 us2 u2 R2 R2'|l2 us2 R2]; subst; try congruence.
  - assert (t2 = t) by congruence. subst. auto.
  - f_equal. revert us2 R2 W. clear -IH. intros us2 R2 _. revert us2 R2. induction IH; intros us2 R2; inversion R2; subst; [reflexivity|]. f_equal; auto.
  - f_equal; [|auto]. clear -IH R2. revert us2 R2. induction IH; intros us2 R2; inversion R2; subst; [reflexivity|]. f_equal; auto.
  - f_equal. clear -IH R2. revert us2 R2. induction IH; intros us2 R2; inversion R2; subst; [reflexivity|]. f_equal; auto.
Qed.

(** Steps to resolve: bounds the fuel, and excludes cycles. *)
Inductive steps (st : store) : type -> nat -> Prop :=
  | steps_var c v : nth_error st c = Some v -> match v with Link _ => False | _ => True end -> steps st (Var c) 1
  | steps_link c t n : nth_error st c = Some (Link t) -> steps st t n -> steps st (Var c) (S n)
  | steps_named d m n l v k : steps_list st l k -> steps st (Named d m n l v) (S k)
  | steps_fn l r k j : steps_list st l k -> steps st r j -> steps st (Fn l r) (S (k + j))
  | steps_tuple l k : steps_list st l k -> steps st (Tuple l) (S k)
with steps_list (st : store) : list type -> nat -> Prop :=
  | steps_nil : steps_list st [] 0
  | steps_cons t l n k : steps st t n -> steps_list st l k -> steps_list st (t :: l) (n + k).
Scheme steps_ind' := Minimality for steps Sort Prop with steps_list_ind' := Minimality for steps_list Sort Prop.
Combined Scheme steps_mut from steps_ind', steps_list_ind'.
Lemma steps_same st : (forall t n, steps st t n -> forall m, steps st t m -> m = n) /\ (forall l n, steps_list st l n -> forall m, steps_list st l m -> m = n).
Proof.
  apply steps_mut.
  - intros c v H V m S. inversion S; subst; [reflexivity|]. assert (v = Link t) by congruence. subst. contradiction.
  - intros c t n H S IH m S'. inversion S' as [? v H' V| | | |]; subst; [assert (v = Link t) by congruence; subst; contradiction|]. assert (t0 = t) by congruence. subst. f_equal. auto.
  - intros d m n l v k S IH j S'. inversion S'; subst. f_equal. auto.
  - intros l r k j S IH S1 IH1 m S'. inversion S'; subst. f_equal. f_equal; auto.
  - intros l k S IH m S'. inversion S'; subst. f_equal. auto.
  - intros m S. inversion S. reflexivity.
  - intros t l n k S IH S1 IH1 m S'. inversion S'; subst. f_equal; auto.
Qed.
Lemma steps_exist st t u : resolves st t u -> exists n, steps st t n.
Proof.
  assert (L : forall l us, Forall2 (fun t (u : term) => exists n, steps st t n) l us -> exists k, steps_list st l k).
  { clear t u. induction 1 as [|t u l us [n H] _ [k IH]]; [exists 0; constructor|]. exists (n + k). constructor; assumption. }
  intros R. induction R as [c id H|c id H|c t u H R [n IH]|d m n l v us R IH|l r us u R IH R' [n IH']|l us R IH] using resolves_ind'.
  - exists 1. eapply steps_var; [exact H|exact I].
  - exists 1. eapply steps_var; [exact H|exact I].
  - exists (S n). econstructor; eassumption.
  - destruct (L _ _ IH) as [k K]. exists (S k). constructor. exact K.
  - destruct (L _ _ IH) as [k K]. exists (S (k + n)). constructor; assumption.
  - destruct (L _ _ IH) as [k K]. exists (S k). constructor. exact K.
Qed.
Lemma steps_pos st t n : steps st t n -> 0 < n.
Proof. destruct 1; lia. Qed.
Lemma steps_list_in st l k : steps_list st l k -> forall t, In t l -> exists n, steps st t n /\ n <= k.
Proof.
  revert k. induction l as [|a l IH]; intros k S t Hin; [destruct Hin|]. inversion S as [|? ? n k' Sn Sk]; subst. destruct Hin as [->|Hin]; [exists n; split; [exact Sn|lia]|].
  destruct (IH _ Sk t Hin) as (m & Sm & Le). exists m. split; [exact Sm|lia].
Qed.

(** ** Cells of a type, and cells that can be reached *)
Fixpoint cells (t : type) : list cell :=
  match t with
  | Named _ _ _ l _ => flat_map cells l
  | Fn l r => flat_map cells l ++ cells r
  | Tuple l => flat_map cells l
  | Var c => [c]
  end.
Inductive reach (st : store) : cell -> cell -> Prop :=
  | reach_here c : reach st c c
  | reach_more c t c' d : nth_error st c = Some (Link t) -> In c' (cells t) -> reach st c' d -> reach st c d.
Definition reaches (st : store) (t : type) (d : cell) : Prop := exists c, In c (cells t) /\ reach st c d.

Lemma steps_cells st : (forall t n, steps st t n -> forall c, In c (cells t) -> exists m, steps st (Var c) m /\ m <= n) /\
  (forall l k, steps_list st l k -> forall c, In c (flat_map cells l) -> exists m, steps st (Var c) m /\ m <= k).
Proof.
  apply steps_mut.
  - intros c v H V d [<-|[]]. exists 1. split; [econstructor; eassumption|lia].
  - intros c t n H S IH d [<-|[]]. exists (Datatypes.S n). split; [econstructor; eassumption|lia].
  - intros d m n l v k S IH c Hc. cbn in Hc. destruct (IH c Hc) as (m' & ? & ?). exists m'. split; [assumption|lia].
  - intros l r k j S IH S1 IH1 c Hc. cbn in Hc. apply in_app_or in Hc. destruct Hc as [Hc|Hc]; [destruct (IH c Hc) as (m' & ? & ?)|destruct (IH1 c Hc) as (m' & ? & ?)]; exists m'; (split; [assumption|lia]).
  - intros l k S IH c Hc. cbn in Hc. destruct (IH c Hc) as (m' & ? & ?). exists m'. split; [assumption|lia].
  - intros c [].
  - intros t l n k S IH S1 IH1 c Hc. cbn in Hc. apply in_app_or in Hc. destruct Hc as [Hc|Hc]; [destruct (IH c Hc) as (m' & ? & ?)|destruct (IH1 c Hc) as (m' & ? & ?)]; exists m'; (split; [assumption|lia]).
Qed.
Lemma steps_reach st c d : reach st c d -> forall n, steps st (Var c) n -> exists m, steps st (Var d) m /\ m <= n.
Proof.
  induction 1 as [c|c t c' d H Hin R IH]; intros n S; [exists n; split; [exact S|lia]|].
  inversion S as [? v H' V|? t' k H' S'| | |]; subst; [assert (v = Link t) by congruence; subst; contradiction|].
  assert (t' = t) by congruence. subst t'. destruct (proj1 (steps_cells st) _ _ S' _ Hin) as (m & Sm & Le).
  destruct (IH _ Sm) as (j & Sj & Le'). exists j. split; [exact Sj|lia].
Qed.
Lemma steps_reaches st t n d : steps st t n -> reaches st t d -> exists m, steps st (Var d) m /\ m <= n.
Proof.
  intros S (c & Hc & R). destruct (proj1 (steps_cells st) _ _ S _ Hc) as (m & Sm & Le). destruct (steps_reach _ _ _ R _ Sm) as (j & Sj & Le'). exists j. split; [exact Sj|lia].
Qed.
Lemma no_cycle st c t u : nth_error st c = Some (Link t) -> resolves st t u -> ~ reaches st t c.
Proof.
  intros H R X. destruct (steps_exist _ _ _ R) as [n S]. destruct (steps_reaches _ _ _ _ S X) as (m & Sm & Le).
  assert (S' : steps st (Var c) (Datatypes.S n)) by (econstructor; eassumption). rewrite (proj1 (steps_same st) _ _ S' _ Sm) in Le. lia.
Qed.

(** ** Subterms *)
Inductive sub (s : term) : term -> Prop :=
  | sub_here : sub s s
  | sub_named m n l u : In u l -> sub s u -> sub s (TNamed m n l)
  | sub_fn l r u : In u l -> sub s u -> sub s (TFn l r)
  | sub_return l r : sub s r -> sub s (TFn l r)
  | sub_tuple l u : In u l -> sub s u -> sub s (TTuple l).
Fixpoint size (u : term) : nat :=
  match u with
  | TVar _ | TGeneric _ => 1
  | TNamed _ _ l | TTuple l => S (list_sum (map size l))
  | TFn l r => S (list_sum (map size l) + size r)
  end.
Lemma size_in u l : In u l -> size u <= list_sum (map size l).
Proof. induction l as [|v l IH]; [intros []|]. cbn [map list_sum]. change (list_sum (size v :: map size l)) with (size v + list_sum (map size l)). intros [->|H]; [lia|]. specialize (IH H). lia. Qed.
Lemma sub_size s u : sub s u -> size s <= size u.
Proof. induction 1; cbn [size]; try (pose proof (size_in _ _ H)); lia. Qed.
Lemma sub_trans s u v : sub s u -> sub u v -> sub s v.
Proof. intros H. induction 1; [exact H|eapply sub_named; eassumption|eapply sub_fn; eassumption|eapply sub_return; eassumption|eapply sub_tuple; eassumption]. Qed.
Lemma sub_apply a s u : sub s u -> sub (apply a s) (apply a u).
Proof. induction 1; cbn [apply]; [constructor| | | |]; [eapply sub_named|eapply sub_fn|eapply sub_return|eapply sub_tuple]; eauto using in_map. Qed.
(** Variables of a term. *)
Definition occurs (i : N) (u : term) : Prop := sub (TVar i) u.
Lemma apply_unchanged a u : (forall i, occurs i u -> a i = TVar i) -> apply a u = u.
Proof.
  induction u as [i|i|m n l IH|l r IH IHr|l IH] using term_ind'; intros H; cbn [apply]; [apply H; constructor|reflexivity|f_equal..].
  - rewrite Forall_forall in IH. rewrite <- map_id. apply map_ext_in. intros x Hx. apply IH; [exact Hx|]. intros i Hi. apply H. eapply sub_named; eassumption.
  - rewrite Forall_forall in IH. rewrite <- map_id. apply map_ext_in. intros x Hx. apply IH; [exact Hx|]. intros i Hi. apply H. eapply sub_fn; eassumption.
  - apply IHr. intros i Hi. apply H. apply sub_return. exact Hi.
  - rewrite Forall_forall in IH. rewrite <- map_id. apply map_ext_in. intros x Hx. apply IH; [exact Hx|]. intros i Hi. apply H. eapply sub_tuple; eassumption.
Qed.
Lemma apply_ext a b u : (forall i, occurs i u -> a i = b i) -> apply a u = apply b u.
Proof.
  induction u as [i|i|m n l IH|l r IH IHr|l IH] using term_ind'; intros H; cbn [apply]; [apply H; constructor|reflexivity|f_equal..].
  - rewrite Forall_forall in IH. apply map_ext_in. intros x Hx. apply IH; [exact Hx|]. intros i Hi. apply H. eapply sub_named; eassumption.
  - rewrite Forall_forall in IH. apply map_ext_in. intros x Hx. apply IH; [exact Hx|]. intros i Hi. apply H. eapply sub_fn; eassumption.
  - apply IHr. intros i Hi. apply H. apply sub_return. exact Hi.
  - rewrite Forall_forall in IH. apply map_ext_in. intros x Hx. apply IH; [exact Hx|]. intros i Hi. apply H. eapply sub_tuple; eassumption.
Qed.
Lemma apply_apply a b u : apply a (apply b u) = apply (fun i => apply a (b i)) u.
Proof.
  induction u as [i|i|m n l IH|l r IH IHr|l IH] using term_ind'; cbn [apply]; try reflexivity; rewrite ?map_map; f_equal; auto;
    rewrite Forall_forall in IH; apply map_ext_in; auto.
Qed.
Lemma apply_id u : apply TVar u = u.
Proof. apply apply_unchanged. reflexivity. Qed.

Lemma resolves_cells st t u : resolves st t u -> forall c, In c (cells t) -> exists w, resolves st (Var c) w /\ sub w u /\ (is_var t = false -> size w < size u).
Proof.
  assert (L : forall l us, Forall2 (fun t u => forall c, In c (cells t) -> exists w, resolves st (Var c) w /\ sub w u /\ (is_var t = false -> size w < size u)) l us ->
    forall c, In c (flat_map cells l) -> exists w x, In x us /\ resolves st (Var c) w /\ sub w x).
  { clear t u. induction 1 as [|t u l us H _ IH]; intros c Hc; [destruct Hc|]. cbn in Hc. apply in_app_or in Hc. destruct Hc as [Hc|Hc].
    - destruct (H c Hc) as (w & R & S & _). exists w, u. split; [left; reflexivity|auto].
    - destruct (IH c Hc) as (w & x & Hx & R & S). exists w, x. split; [right; exact Hx|auto]. }
  intros R. induction R as [c id H|c id H|c t u H R IH|d m n l v us R IH|l r us u R IH R' IH'|l us R IH] using resolves_ind'; intros c' Hc; cbn [cells] in Hc.
  - destruct Hc as [<-|[]]. exists (TVar id). split; [constructor; exact H|]. split; [constructor|discriminate].
  - destruct Hc as [<-|[]]. exists (TGeneric id). split; [constructor; exact H|]. split; [constructor|discriminate].
  - destruct Hc as [<-|[]]. exists u. split; [eapply resolves_link; eassumption|]. split; [constructor|discriminate].
  - destruct (L _ _ IH c' Hc) as (w & x & Hx & Rw & S). exists w. split; [exact Rw|]. split; [eapply sub_named; eassumption|].
    intros _. cbn [size]. pose proof (sub_size _ _ S). pose proof (size_in _ _ Hx). lia.
  - apply in_app_or in Hc. destruct Hc as [Hc|Hc].
    + destruct (L _ _ IH c' Hc) as (w & x & Hx & Rw & S). exists w. split; [exact Rw|]. split; [eapply sub_fn; eassumption|].
      intros _. cbn [size]. pose proof (sub_size _ _ S). pose proof (size_in _ _ Hx). lia.
    + destruct (IH' c' Hc) as (w & Rw & S & _). exists w. split; [exact Rw|]. split; [apply sub_return; exact S|].
      intros _. cbn [size]. pose proof (sub_size _ _ S). lia.
  - destruct (L _ _ IH c' Hc) as (w & x & Hx & Rw & S). exists w. split; [exact Rw|]. split; [eapply sub_tuple; eassumption|].
    intros _. cbn [size]. pose proof (sub_size _ _ S). pose proof (size_in _ _ Hx). lia.
Qed.
Lemma resolves_reach st c d : reach st c d -> forall u, resolves st (Var c) u -> exists w, resolves st (Var d) w /\ sub w u.
Proof.
  induction 1 as [c|c t c' d H Hin R IH]; intros u S; [exists u; split; [exact S|constructor]|].
  inversion S as [? ? H'|? ? H'|? t' ? H' S'| | |]; subst; try congruence. assert (t' = t) by congruence. subst t'.
  destruct (resolves_cells _ _ _ S' _ Hin) as (w & Rw & Sw & _). destruct (IH _ Rw) as (x & Rx & Sx). exists x. split; [exact Rx|]. eapply sub_trans; eassumption.
Qed.
Lemma resolves_reaches st t u d : resolves st t u -> reaches st t d -> exists w, resolves st (Var d) w /\ sub w u /\ (is_var t = false -> size w < size u).
Proof.
  intros R (c & Hc & X). destruct (resolves_cells _ _ _ R _ Hc) as (w & Rw & Sw & Lt). destruct (resolves_reach _ _ _ X _ Rw) as (x & Rx & Sx).
  exists x. split; [exact Rx|]. split; [eapply sub_trans; eassumption|]. intros V. specialize (Lt V). pose proof (sub_size _ _ Sx). lia.
Qed.

(** ** What changes in a store *)
Definition is_unbound (v : type_var) : bool := match v with Unbound _ => true | _ => false end.
Definition unbound (st : store) : nat := length (filter is_unbound st).
Definition bit (b : bool) : nat := if b then 1 else 0.
Lemma unbound_set st c v w : nth_error st c = Some w -> unbound (set st c v) + bit (is_unbound w) = unbound st + bit (is_unbound v).
Proof.
  unfold unbound. revert c. induction st as [|x st IH]; intros [|c] H; try discriminate; cbn [set filter nth_error] in *.
  - injection H as ->. destruct (is_unbound v), (is_unbound w); cbn [length bit]; lia.
  - specialize (IH c H). destruct (is_unbound x); cbn [length]; lia.
Qed.
Record after (st st' : store) (a : assignment) : Prop := After {
  after_length : length st' = length st;
  after_resolves : forall t u, resolves st t u -> resolves st' t (apply a u);
  after_link : forall c t, nth_error st c = Some (Link t) -> exists t', nth_error st' c = Some (Link t');
  after_unbound : forall c i, nth_error st' c = Some (Unbound i) -> nth_error st c = Some (Unbound i);
  after_alias : forall d c t, nth_error st' d = Some (Link (Var c)) -> nth_error st c = Some (Link t) -> nth_error st d = Some (Link (Var c));
  after_count : unbound st' < unbound st \/ (unbound st' = unbound st /\ forall i, a i = TVar i) }.
Lemma after_refl st : after st st TVar.
Proof. constructor; try auto; [intros t u H; rewrite apply_id; exact H|intros c t H; eauto]. Qed.
Lemma after_trans st st1 st2 a b : after st st1 a -> after st1 st2 b -> after st st2 (fun i => apply b (a i)).
Proof.
  intros A B. constructor.
  - rewrite (after_length _ _ _ B). apply (after_length _ _ _ A).
  - intros t u R. rewrite <- apply_apply. apply (after_resolves _ _ _ B). apply (after_resolves _ _ _ A). exact R.
  - intros c t H. destruct (after_link _ _ _ A c t H) as [t' H']. apply (after_link _ _ _ B c t' H').
  - intros c i H. apply (after_unbound _ _ _ A). apply (after_unbound _ _ _ B). exact H.
  - intros d c t H H'. destruct (after_link _ _ _ A c t H') as [t' H2]. apply (after_alias _ _ _ A d c t); [|exact H']. apply (after_alias _ _ _ B d c t' H H2).
  - destruct (after_count _ _ _ A) as [L|[E Ia]], (after_count _ _ _ B) as [L'|[E' Ib]]; try (left; lia). right. split; [lia|]. intros i. rewrite Ia. cbn. apply Ib.
Qed.
Lemma after_distinct st st' a : after st st' a -> distinct st -> distinct st'.
Proof. intros A D c c' i H H'. apply (D c c' i); apply (after_unbound _ _ _ A); assumption. Qed.
Lemma after_id st st' a t u : after st st' a -> (forall i, a i = TVar i) -> resolves st t u -> resolves st' t u.
Proof. intros A I R. rewrite <- (apply_unchanged a u) by auto. apply (after_resolves _ _ _ A). exact R. Qed.
Lemma after_ext st st' a b : after st st' a -> (forall i, a i = b i) -> after st st' b.
Proof.
  intros A E. constructor; try apply A.
  - intros t u R. rewrite <- (apply_ext a b u) by auto. apply (after_resolves _ _ _ A). exact R.
  - destruct (after_count _ _ _ A) as [L|[Eq I]]; [left; exact L|right]. split; [exact Eq|]. intros i. rewrite <- E. apply I.
Qed.

Lemma reaches_in st t l c : In t l -> reaches st t c -> exists x, In x (flat_map cells l) /\ reach st x c.
Proof. intros H (x & Hx & R). exists x. split; [apply in_flat_map; eauto|exact R]. Qed.
Lemma set_avoid st c x : forall t u, resolves st t u -> ~ reaches st t c -> resolves (set st c x) t u.
Proof.
  assert (L : forall l us, Forall2 (fun t u => ~ reaches st t c -> resolves (set st c x) t u) l us -> (forall d, In d (flat_map cells l) -> ~ reach st d c) -> Forall2 (resolves (set st c x)) l us).
  { induction 1 as [|t u l us H _ IH]; intros N; constructor.
    - apply H. intros (d & Hd & R). apply (N d); [cbn; apply in_or_app; left; exact Hd|exact R].
    - apply IH. intros d Hd. apply N. cbn. apply in_or_app. right. exact Hd. }
  intros t u R. induction R as [c' id H|c' id H|c' t u H R IH|d m n l v us R IH|l r us u R IH R' IH'|l us R IH] using resolves_ind'; intros N.
  - apply resolves_unbound. rewrite set_get_other; [exact H|]. intros ->. apply N. exists c. split; [left; reflexivity|constructor].
  - apply resolves_generic. rewrite set_get_other; [exact H|]. intros ->. apply N. exists c. split; [left; reflexivity|constructor].
  - eapply resolves_link; [rewrite set_get_other; [exact H|]|apply IH].
    + intros ->. apply N. exists c. split; [left; reflexivity|constructor].
    + intros (d & Hd & X). apply N. exists c'. split; [left; reflexivity|]. eapply reach_more; eassumption.
  - constructor. apply L; [exact IH|]. intros e He X. apply N. exists e. split; assumption.
  - constructor; [apply L; [exact IH|]|apply IH'].
    + intros e He X. apply N. exists e. split; [cbn; apply in_or_app; left; exact He|exact X].
    + intros (e & He & X). apply N. exists e. split; [cbn; apply in_or_app; right; exact He|exact X].
  - constructor. apply L; [exact IH|]. intros e He X. apply N. exists e. split; assumption.
Qed.
Lemma resolves_unbound_inv st c i u : nth_error st c = Some (Unbound i) -> resolves st (Var c) u -> u = TVar i.
Proof. intros H R. inversion R; subst; congruence. Qed.
Lemma resolves_link_inv st c t u : nth_error st c = Some (Link t) -> resolves st (Var c) u -> resolves st t u.
Proof. intros H R. inversion R; subst; congruence. Qed.

Definition single (id : N) (u : term) : assignment := fun i => if N.eqb i id then u else TVar i.
Lemma apply_single_absent id u v : ~ occurs id v -> apply (single id u) v = v.
Proof. intros H. apply apply_unchanged. intros i Hi. unfold single. destruct (N.eqb_spec i id) as [->|]; [contradiction|reflexivity]. Qed.
(** A new value of an unbound variable. *)
Lemma bind_resolves st c id v w : nth_error st c = Some (Unbound id) -> distinct st ->
  resolves (set st c v) (Var c) w -> forall t u, resolves st t u -> resolves (set st c v) t (apply (single id w) u).
Proof.
  intros H D Rc.
  assert (L : forall l us, Forall2 (fun t u => resolves (set st c v) t (apply (single id w) u)) l us -> Forall2 (resolves (set st c v)) l (map (apply (single id w)) us)).
  { intros l us. apply Forall2_map_r. }
  intros t u R. induction R as [c' i H'|c' i H'|c' t u H' R IH|d m n l v' us R IH|l r us u R IH R' IH'|l us R IH] using resolves_ind'; cbn [apply].
  - unfold single. destruct (N.eqb_spec i id) as [->|Ne]; [rewrite (D c' c id H' H); exact Rc|].
    apply resolves_unbound. rewrite set_get_other; [exact H'|]. intros ->. congruence.
  - apply resolves_generic. rewrite set_get_other; [exact H'|]. intros ->. congruence.
  - eapply resolves_link; [rewrite set_get_other; [exact H'|]|exact IH]. intros ->. congruence.
  - constructor. apply L. exact IH.
  - constructor; [apply L; exact IH|exact IH'].
  - constructor. apply L. exact IH.
Qed.
Lemma bind_link st c id t u : nth_error st c = Some (Unbound id) -> distinct st -> resolves st t u -> ~ occurs id u -> the_link st t = None ->
  after st (set st c (Link t)) (single id u).
Proof.
  intros H D R O NL.
  assert (Nr : ~ reaches st t c).
  { intros X. destruct (resolves_reaches _ _ _ _ R X) as (w & Rw & Sw & _). rewrite (resolves_unbound_inv _ _ _ _ H Rw) in Sw. exact (O Sw). }
  constructor.
  - apply set_length.
  - apply bind_resolves; [exact H|exact D|]. eapply resolves_link; [eapply set_get_same; exact H|]. apply set_avoid; assumption.
  - intros d t' H'. exists t'. rewrite set_get_other; [exact H'|]. intros ->. congruence.
  - intros d i H'. rewrite set_get in H'. destruct (Nat.eqb_spec d c) as [->|]; [rewrite H in H'; discriminate|exact H'].
  - intros d e t' H' He. rewrite set_get in H'. destruct (Nat.eqb_spec d c) as [->|]; [|exact H']. rewrite H in H'. cbn in H'. injection H' as ->. cbn in NL. rewrite He in NL. discriminate.
  - left. pose proof (unbound_set st c (Link t) _ H) as U. cbn in U. lia.
Qed.
Lemma bind_generic st c id g : nth_error st c = Some (Unbound id) -> distinct st -> after st (set st c (Generic g)) (single id (TGeneric g)).
Proof.
  intros H D. constructor.
  - apply set_length.
  - apply bind_resolves; [exact H|exact D|]. apply resolves_generic. eapply set_get_same. exact H.
  - intros d t' H'. exists t'. rewrite set_get_other; [exact H'|]. intros ->. congruence.
  - intros d i H'. rewrite set_get in H'. destruct (Nat.eqb_spec d c) as [->|]; [rewrite H in H'; discriminate|exact H'].
  - intros d e t' H' He. rewrite set_get in H'. destruct (Nat.eqb_spec d c) as [->|]; [|exact H']. rewrite H in H'. discriminate.
  - left. pose proof (unbound_set st c (Generic g) _ H) as U. cbn in U. lia.
Qed.
(** Another link with the same meaning. *)
Lemma relink st c t t' u : nth_error st c = Some (Link t) -> resolves st t u -> resolves st t' u -> ~ reaches st t' c ->
  (forall d s, t' = Var d -> nth_error st d = Some (Link s) -> t = Var d) ->
  after st (set st c (Link t')) TVar.
Proof.
  intros H R R' N A. constructor.
  - apply set_length.
  - intros s v Rs. rewrite apply_id.
    assert (Rc : resolves (set st c (Link t')) (Var c) u) by (eapply resolves_link; [eapply set_get_same; exact H|apply set_avoid; assumption]).
    induction Rs as [c' i H'|c' i H'|c' s v H' Rs IH|d m n l v' us Rs IH|l r us v Rs IH Rs' IH'|l us Rs IH] using resolves_ind'.
    + apply resolves_unbound. rewrite set_get_other; [exact H'|]. intros ->. congruence.
    + apply resolves_generic. rewrite set_get_other; [exact H'|]. intros ->. congruence.
    + destruct (Nat.eq_dec c' c) as [->|Ne]; [|eapply resolves_link; [rewrite set_get_other; [exact H'|exact Ne]|exact IH]].
      assert (s = t) by congruence. subst s. rewrite (resolves_same _ _ _ R _ Rs). exact Rc.
    + constructor. exact IH.
    + constructor; assumption.
    + constructor. exact IH.
  - intros d s Hd. rewrite set_get. destruct (Nat.eqb_spec d c) as [->|]; [rewrite H; cbn; eauto|eauto].
  - intros d i Hd. rewrite set_get in Hd. destruct (Nat.eqb_spec d c) as [->|]; [rewrite H in Hd; discriminate|exact Hd].
  - intros d e s Hd He. rewrite set_get in Hd. destruct (Nat.eqb_spec d c) as [->|]; [|exact Hd]. rewrite H in Hd. cbn in Hd. injection Hd as ->.
    rewrite H. f_equal. f_equal. exact (A e s eq_refl He).
  - right. split; [|reflexivity]. pose proof (unbound_set st c (Link t') _ H) as U. cbn in U. lia.
Qed.

(** ** Equality and the occurs check *)
Lemma all_same_spec st f l : forall us l' us', Forall2 (resolves st) l us -> Forall2 (resolves st) l' us' ->
  (forall t u t' u', In t l -> resolves st t u -> resolves st t' u' -> match f t t' with Answer true => u = u' | Panics => False | _ => True end) ->
  match all_same f l l' with Answer true => us = us' | Panics => False | _ => True end.
Proof.
  induction l as [|t l IH]; intros us l' us' R R' F; inversion R as [|? u ? us0 Rt Rl]; subst; inversion R' as [|t' u' l0 us1 Rt' Rl']; subst; cbn [all_same]; try exact I; [reflexivity|].
  pose proof (F t u t' u' (or_introl eq_refl) Rt Rt') as X. destruct (f t t') as [[|]| |]; try exact X.
  specialize (IH _ _ _ Rl Rl' (fun a b c d H => F a b c d (or_intror H))). destruct (all_same f l l0) as [[|]| |]; try exact IH. congruence.
Qed.
Lemma same_spec st fuel : forall t1 t2 u1 u2, resolves st t1 u1 -> resolves st t2 u2 ->
  match same fuel st t1 t2 with Answer true => u1 = u2 | Panics => False | _ => True end.
Proof.
  induction fuel as [|fuel IH]; intros t1 t2 u1 u2 R1 R2; [exact I|].
  cbn [same]. destruct t1 as [d m n l v|l r|l|c], t2 as [d' m' n' l' v'|l' r'|l'|c']; try exact I.
  - destruct (N.eqb d d'); [|exact I]. destruct (text_eqb m m') eqn:Em; [|exact I]. destruct (text_eqb n n') eqn:En; [|exact I]. destruct (option_eqb v v'); [|exact I].
    apply text_eqb_eq in Em, En. subst. cbn [andb]. inversion R1 as [| | |? ? ? ? ? us Rl| |]; subst. inversion R2 as [| | |? ? ? ? ? us' Rl'| |]; subst.
    pose proof (all_same_spec st (same fuel st) l us l' us' Rl Rl' (fun t u t' u' _ => IH t t' u u')) as X. destruct (all_same _ l l') as [[|]| |]; try exact X. congruence.
  - inversion R1 as [| | | |? ? us u Rl Rr|]; subst. inversion R2 as [| | | |? ? us' u' Rl' Rr'|]; subst.
    pose proof (all_same_spec st (same fuel st) l us l' us' Rl Rl' (fun t u t' u' _ => IH t t' u u')) as X. destruct (all_same _ l l') as [[|]| |]; try exact X.
    specialize (IH _ _ _ _ Rr Rr'). destruct (same fuel st r r') as [[|]| |]; try exact IH. congruence.
  - inversion R1 as [| | | | |? us Rl]; subst. inversion R2 as [| | | | |? us' Rl']; subst.
    pose proof (all_same_spec st (same fuel st) l us l' us' Rl Rl' (fun t u t' u' _ => IH t t' u u')) as X. destruct (all_same _ l l') as [[|]| |]; try exact X. congruence.
  - inversion R1 as [? i H|? i H|? t ? H Rt| | |]; subst; rewrite H; inversion R2 as [? j H'|? j H'|? t' ? H' Rt'| | |]; subst; rewrite H'; try exact I.
    + destruct (N.eqb_spec i j); [congruence|exact I].
    + destruct (N.eqb_spec i j); [congruence|exact I].
    + apply IH; assumption.
Qed.
Lemma same_unbound st fuel c c' i b : nth_error st c = Some (Unbound i) -> nth_error st c' = Some (Unbound i) -> same fuel st (Var c) (Var c') = Answer b -> b = true.
Proof. intros H H'. destruct fuel; [discriminate|]. cbn [same]. rewrite H, H', N.eqb_refl. congruence. Qed.

Lemma any_spec st f id l : forall us, Forall2 (resolves st) l us ->
  (forall t u, In t l -> resolves st t u -> match f t with Answer b => b = true <-> occurs id u | Panics => False | NoFuel => True end) ->
  match any f l with Answer b => b = true <-> exists u, In u us /\ occurs id u | Panics => False | NoFuel => True end.
Proof.
  induction l as [|t l IH]; intros us R F; inversion R as [|? u ? us0 Rt Rl]; subst; cbn [any].
  - split; [discriminate|]. intros (u & [] & _).
  - pose proof (F t u (or_introl eq_refl) Rt) as X. specialize (IH _ Rl (fun a b H => F a b (or_intror H))).
    destruct (f t) as [[|]| |]; try exact X.
    + split; [|reflexivity]. intros _. exists u. split; [left; reflexivity|apply X; reflexivity].
    + destruct (any f l) as [b| |]; try exact IH. rewrite IH. split; intros (x & Hx & O); [exists x; split; [right|]; assumption|].
      destruct Hx as [<-|Hx]; [apply X in O; discriminate|eauto].
Qed.
Lemma occurs_spec st id fuel : forall t u, resolves st t u ->
  match unify_unbound_type fuel st t id with Answer b => b = true <-> occurs id u | Panics => False | NoFuel => True end.
Proof.
  induction fuel as [|fuel IH]; intros t u R; [exact I|]. cbn [unify_unbound_type].
  destruct t as [d m n l v|l r|l|c].
  - inversion R as [| | |? ? ? ? ? us Rl| |]; subst. pose proof (any_spec st (fun a => unify_unbound_type fuel st a id) id l us Rl (fun t u _ => IH t u)) as X.
    destruct (any _ l) as [b| |]; try exact X. rewrite X. split; [intros (x & Hx & O); eapply sub_named; eassumption|]. intros O. inversion O; subst. eauto.
  - inversion R as [| | | |? ? us w Rl Rr|]; subst. pose proof (any_spec st (fun a => unify_unbound_type fuel st a id) id l us Rl (fun t u _ => IH t u)) as X.
    destruct (any _ l) as [[|]| |]; try exact X.
    + split; [|reflexivity]. intros _. destruct (proj1 X eq_refl) as (x & Hx & O). eapply sub_fn; eassumption.
    + specialize (IH _ _ Rr). destruct (unify_unbound_type fuel st r id) as [b| |]; try exact IH. rewrite IH. split; [apply sub_return|].
      intros O. inversion O; subst; [|assumption]. assert (false = true) by (apply X; eauto). discriminate.
  - inversion R as [| | | | |? us Rl]; subst. pose proof (any_spec st (fun a => unify_unbound_type fuel st a id) id l us Rl (fun t u _ => IH t u)) as X.
    destruct (any _ l) as [b| |]; try exact X. rewrite X. split; [intros (x & Hx & O); eapply sub_tuple; eassumption|]. intros O. inversion O; subst. eauto.
  - inversion R as [? i H|? i H|? t ? H Rt| | |]; subst; rewrite H.
    + split; [intros E; apply N.eqb_eq in E; subst; constructor|]. intros O. inversion O; subst. apply N.eqb_refl.
    + split; [discriminate|]. intros O. inversion O.
    + apply IH. exact Rt.
Qed.

(** ** Collapsing *)
Inductive alias (st : store) (c : cell) : type -> Prop :=
  | alias_here : alias st c (Var c)
  | alias_more d t : nth_error st d = Some (Link t) -> alias st c t -> alias st c (Var d).
Lemma collapse_spec st taken fuel : forall t u, resolves st t u -> ~ alias st taken t ->
  match collapse_links fuel taken st t with
  | Answer t' => resolves st t' u /\ the_link st t' = None /\ t' <> Var taken
  | Panics => False
  | NoFuel => True
  end.
Proof.
  induction fuel as [|fuel IH]; intros t u R N; [exact I|]. cbn [collapse_links].
  destruct t as [d m n l v|l r|l|c]; try (split; [exact R|split; [reflexivity|discriminate]]).
  destruct (Nat.eqb_spec c taken) as [->|Ne]; [apply N; constructor|].
  inversion R as [? i H|? i H|? t ? H Rt| | |]; subst; rewrite H.
  - split; [exact R|]. cbn. rewrite H. split; [reflexivity|congruence].
  - split; [exact R|]. cbn. rewrite H. split; [reflexivity|congruence].
  - apply IH; [exact Rt|]. intros X. apply N. econstructor; eassumption.
Qed.
Lemma alias_reaches st c t : alias st c t -> reaches st t c.
Proof.
  induction 1 as [|d t H A (e & He & R)]; [exists c; split; [left; reflexivity|constructor]|]. exists d. split; [left; reflexivity|]. eapply reach_more; eassumption.
Qed.
(** Old links are the only ones that lead to a linked variable. *)
Lemma alias_after st st' a c t s : after st st' a -> nth_error st c = Some (Link s) -> alias st' c t ->
  match t with Var d => d = c \/ exists e, alias st c e /\ nth_error st d = Some (Link e) | _ => False end.
Proof.
  intros A H. induction 1 as [|d t H' X IH]; [left; reflexivity|]. right.
  destruct t as [| | |e]; try contradiction. exists (Var e).
  assert (X' : alias st c (Var e)) by (destruct IH as [->|(e' & X' & H2)]; [constructor|econstructor; eassumption]).
  split; [exact X'|].
  destruct IH as [->|(e' & X2 & H2)]; [exact (after_alias _ _ _ A _ _ _ H' H)|exact (after_alias _ _ _ A _ _ _ H' H2)].
Qed.

(** ** Forgetting variants *)
Definition same_links (st st' : store) : Prop := forall c,
  match nth_error st c, nth_error st' c with
  | Some (Link t), Some (Link t') => cells t = cells t' /\ forall d, t' = Var d <-> t = Var d
  | x, y => x = y
  end.
Lemma same_links_refl st : same_links st st.
Proof. intros c. destruct (nth_error st c) as [[| |]|]; auto. split; [reflexivity|]. intros d. reflexivity. Qed.
Lemma same_links_trans st st1 st2 : same_links st st1 -> same_links st1 st2 -> same_links st st2.
Proof.
  intros A B c. specialize (A c). specialize (B c). destruct (nth_error st c) as [[i|t|i]|], (nth_error st1 c) as [[i1|t1|i1]|], (nth_error st2 c) as [[i2|t2|i2]|]; try congruence.
  destruct A as [A1 A2], B as [B1 B2]. split; [congruence|]. intros d. rewrite B2. apply A2.
Qed.
Lemma same_links_reach st st' c d : same_links st st' -> reach st' c d -> reach st c d.
Proof.
  intros S. induction 1 as [c|c t c' d H Hin R IH]; [constructor|]. specialize (S c). rewrite H in S.
  destruct (nth_error st c) as [[i|t0|i]|] eqn:E; try congruence. eapply reach_more; [exact E|destruct S as [-> _]; exact Hin|exact IH].
Qed.
Lemma same_links_reaches st st' t c : same_links st st' -> reaches st' t c -> reaches st t c.
Proof. intros S (d & Hd & R). exists d. split; [exact Hd|eapply same_links_reach; eassumption]. Qed.

Definition forgot (st : store) (t : type) (u : term) (r : answer (type * store)) : Prop :=
  match r with
  | Answer (t', st') => after st st' TVar /\ resolves st' t' u /\ cells t' = cells t /\ (forall d, t' = Var d <-> t = Var d) /\ same_links st st'
  | Panics => False
  | NoFuel => True
  end.
Lemma each_spec borrowed f l : forall st us, Forall2 (resolves st) l us -> (forall c, In c borrowed -> ~ exists d, In d (flat_map cells l) /\ reach st d c) ->
  (forall st t u, resolves st t u -> (forall c, In c borrowed -> ~ reaches st t c) -> forgot st t u (f st t)) ->
  match each f st l with
  | Answer (l', st') => after st st' TVar /\ Forall2 (resolves st') l' us /\ flat_map cells l' = flat_map cells l /\ same_links st st'
  | Panics => False
  | NoFuel => True
  end.
Proof.
  induction l as [|t l IH]; intros st us R N F; inversion R as [|? u ? us0 Rt Rl]; subst; cbn [each].
  - split; [apply after_refl|]. split; [constructor|]. split; [reflexivity|apply same_links_refl].
  - assert (Nt : forall c, In c borrowed -> ~ reaches st t c).
    { intros c Hc (d & Hd & X). apply (N c Hc). exists d. split; [cbn; apply in_or_app; left; exact Hd|exact X]. }
    pose proof (F st t u Rt Nt) as X. destruct (f st t) as [[t' st1]| |]; try exact X. destruct X as (A1 & R1 & C1 & _ & S1).
    assert (Rl1 : Forall2 (resolves st1) l us0) by (eapply Forall2_imp; [|exact Rl]; intros x y Rxy; eapply after_id; [exact A1|reflexivity|exact Rxy]).
    assert (Nl : forall c, In c borrowed -> ~ exists d, In d (flat_map cells l) /\ reach st1 d c).
    { intros c Hc (d & Hd & X). apply (N c Hc). exists d. split; [cbn; apply in_or_app; right; exact Hd|eapply same_links_reach; eassumption]. }
    specialize (IH st1 us0 Rl1 Nl F). destruct (each f st1 l) as [[l' st2]| |]; try exact IH. destruct IH as (A2 & R2 & C2 & S2).
    split; [exact (after_trans _ _ _ _ _ A1 A2)|]. split; [constructor; [eapply after_id; [exact A2|reflexivity|exact R1]|exact R2]|].
    split; [cbn; congruence|eapply same_links_trans; eassumption].
Qed.
Lemma generalise_spec fuel : forall borrowed st t u, resolves st t u -> (forall c, In c borrowed -> ~ reaches st t c) ->
  forgot st t u (generalise_variant fuel borrowed st t).
Proof.
  induction fuel as [|fuel IH]; intros borrowed st t u R N; [exact I|]. cbn [generalise_variant].
  destruct t as [d m n l v|l r|l|c].
  - inversion R as [| | |? ? ? ? ? us Rl| |]; subst. split; [apply after_refl|]. split; [constructor; exact Rl|]. split; [reflexivity|]. split; [split; discriminate|apply same_links_refl].
  - inversion R as [| | | |? ? us w Rl Rr|]; subst.
    assert (Nl : forall c, In c borrowed -> ~ exists d, In d (flat_map cells l) /\ reach st d c).
    { intros c Hc (d & Hd & X). apply (N c Hc). exists d. split; [cbn; apply in_or_app; left; exact Hd|exact X]. }
    pose proof (each_spec borrowed (generalise_variant fuel borrowed) l st us Rl Nl (IH borrowed)) as X.
    destruct (each _ st l) as [[l' st1]| |]; try exact X. destruct X as (A1 & R1 & C1 & S1).
    assert (Nr : forall c, In c borrowed -> ~ reaches st1 r c).
    { intros c Hc (d & Hd & X). apply (N c Hc). exists d. split; [cbn; apply in_or_app; right; exact Hd|eapply same_links_reach; eassumption]. }
    assert (Rr1 : resolves st1 r w) by (eapply after_id; [exact A1|reflexivity|exact Rr]).
    specialize (IH borrowed st1 r w Rr1 Nr). destruct (generalise_variant fuel borrowed st1 r) as [[r' st2]| |]; try exact IH. destruct IH as (A2 & R2 & C2 & _ & S2).
    split; [exact (after_trans _ _ _ _ _ A1 A2)|]. split; [constructor; [|exact R2]|].
    + eapply Forall2_imp; [|exact R1]. intros x y Rxy. eapply after_id; [exact A2|reflexivity|exact Rxy].
    + split; [cbn; congruence|]. split; [split; discriminate|eapply same_links_trans; eassumption].
  - inversion R as [| | | | |? us Rl]; subst.
    assert (Nl : forall c, In c borrowed -> ~ exists d, In d (flat_map cells l) /\ reach st d c).
    { intros c Hc (d & Hd & X). apply (N c Hc). exists d. split; [exact Hd|exact X]. }
    pose proof (each_spec borrowed (generalise_variant fuel borrowed) l st us Rl Nl (IH borrowed)) as X.
    destruct (each _ st l) as [[l' st1]| |]; try exact X. destruct X as (A1 & R1 & C1 & S1).
    split; [exact A1|]. split; [constructor; exact R1|]. split; [exact C1|]. split; [split; discriminate|exact S1].
  - destruct (mem c borrowed) eqn:M.
    { apply mem_in in M. apply (N c M). exists c. split; [left; reflexivity|constructor]. }
    inversion R as [? i H|? i H|? t ? H Rt| | |]; subst; rewrite H; try (split; [apply after_refl|split; [exact R|split; [reflexivity|split; [reflexivity|apply same_links_refl]]]]).
    pose proof (no_cycle _ _ _ _ H Rt) as Nc.
    assert (Nt : forall d, In d (c :: borrowed) -> ~ reaches st t d).
    { intros d [<-|Hd]; [exact Nc|]. intros (e & He & X). apply (N d Hd). exists c. split; [left; reflexivity|]. eapply reach_more; eassumption. }
    specialize (IH (c :: borrowed) st t u Rt Nt). destruct (generalise_variant fuel (c :: borrowed) st t) as [[t' st1]| |]; try exact IH. destruct IH as (A1 & R1 & C1 & V1 & S1).
    pose proof (S1 c) as Sc. rewrite H in Sc. destruct (nth_error st1 c) as [[i|t1|i]|] eqn:H1; try discriminate. destruct Sc as [Sc Sv].
    assert (Rt1 : resolves st1 t1 u) by (eapply resolves_link_inv; [exact H1|]; eapply after_id; [exact A1|reflexivity|exact R]).
    assert (Nt' : ~ reaches st1 t' c).
    { intros X. apply (same_links_reaches _ _ _ _ S1) in X. destruct X as (d & Hd & X). rewrite C1 in Hd. apply Nc. exists d. split; assumption. }
    assert (A2 : after st1 (set st1 c (Link t')) TVar).
    { eapply relink; try eassumption. intros d s E Hs. apply Sv. apply V1. exact E. }
    split; [exact (after_trans _ _ _ _ _ A1 A2)|]. split; [eapply after_id; [exact A2|reflexivity|]; eapply after_id; [exact A1|reflexivity|exact R]|].
    split; [reflexivity|]. split; [reflexivity|]. intros d. rewrite set_get. specialize (S1 d). destruct (Nat.eqb_spec d c) as [->|]; [|exact S1].
    rewrite H, H1. cbn. split; [congruence|exact V1].
Qed.

(** ** Unification *)
Definition blames (st : store) (t1 t2 : type) (e : unify_error) : Prop :=
  match e with CouldNotUnify x y _ => shown st t1 x /\ shown st t2 y | RecursiveType => True end.
Definition unified (st : store) (t1 t2 : type) (u1 u2 : term) (o : outcome) : Prop :=
  match o with
  | Ok st' => exists a, after st st' a /\ apply a u1 = apply a u2 /\ forall b, unifies b u1 u2 -> forall i, apply b (a i) = b i
  | Err e st' => exists a, after st st' a /\ (forall b, ~ unifies b u1 u2) /\ blames st t1 t2 e
  | Panic => False
  | OutOfFuel => True
  end.
Lemma same_generic st fuel c c' i b : nth_error st c = Some (Generic i) -> nth_error st c' = Some (Generic i) -> same fuel st (Var c) (Var c') = Answer b -> b = true.
Proof. intros H H'. destruct fuel; [discriminate|]. cbn [same]. rewrite H, H', N.eqb_refl. congruence. Qed.
Lemma sub_strict a s u : sub s u -> s = u \/ size (apply a s) < size (apply a u).
Proof.
  induction 1 as [|m n l u Hin S IH|l r u Hin S IH|l r S IH|l u Hin S IH]; [left; reflexivity|right..]; cbn [apply size];
    try (assert (Le : size (apply a u) <= list_sum (map size (map (apply a) l))) by (apply size_in; apply in_map; exact Hin)); destruct IH as [->|IH]; lia.
Qed.
Lemma not_infinite id u a : occurs id u -> u <> TVar id -> ~ unifies a (TVar id) u.
Proof. intros O Ne E. destruct (sub_strict a _ _ O) as [X|X]; [congruence|]. unfold unifies in E. cbn [apply] in *. rewrite E in X. lia. Qed.
Lemma shown_nonlink st t : the_link st t = None -> (forall c, t = Var c -> exists v, nth_error st c = Some v) -> shown st t t.
Proof.
  intros H V. destruct t; try (apply shown_other; reflexivity). destruct (V _ eq_refl) as [v Hv]. eapply shown_var; [exact Hv|]. cbn in H. rewrite Hv in H. destruct v; try exact I. discriminate.
Qed.
Lemma shown_resolves st t u : the_link st t = None -> resolves st t u -> shown st t t.
Proof. intros H R. apply shown_nonlink; [exact H|]. intros c ->. inversion R; subst; eauto. Qed.
Lemma resolves_tvar st t id : the_link st t = None -> resolves st t (TVar id) -> exists c, t = Var c /\ nth_error st c = Some (Unbound id).
Proof. intros NL R. inversion R as [c i H|c i H|c s w H Rs| | |]; subst; [eauto|]. cbn in NL. rewrite H in NL. discriminate. Qed.

Lemma unify_bind fuel B st c v t2 u1 u2 : nth_error st c = Some v -> match v with Link _ => False | _ => True end -> the_link st t2 = None ->
  resolves st (Var c) u1 -> resolves st t2 u2 -> distinct st -> (forall d, In d B -> exists t, nth_error st d = Some (Link t)) ->
  (forall id, v = Unbound id -> ~ occurs id u2 -> forall d, In d B -> ~ reaches st t2 d) ->
  unified st (Var c) t2 u1 u2 (unify (S fuel) B st (Var c) t2).
Proof.
  intros Hc Hv NL R1 R2 D HB HN. cbn [unify].
  pose proof (same_spec st fuel _ _ _ _ R1 R2) as Sm. destruct (same fuel st (Var c) t2) as [[|]| |] eqn:ES; try exact Sm.
  { subst u2. exists TVar. split; [apply after_refl|]. split; [reflexivity|]. intros b _ i. reflexivity. }
  rewrite NL, Hc.
  assert (NB : forall d v', nth_error st d = Some v' -> match v' with Link _ => False | _ => True end -> mem d B = false).
  { intros d v' Hd Hv'. destruct (mem d B) eqn:M; [|reflexivity]. apply mem_in in M. destruct (HB d M) as [t Ht]. rewrite Ht in Hd. injection Hd as <-. contradiction. }
  destruct v as [id|t|g]; [| contradiction|].
  - assert (u1 = TVar id) by (eapply resolves_unbound_inv; eassumption). subst u1.
    assert (Ne : u2 <> TVar id).
    { intros ->. destruct (resolves_tvar _ _ _ NL R2) as (c2 & -> & H2). pose proof (same_unbound _ _ _ _ _ _ Hc H2 ES). discriminate. }
    pose proof (occurs_spec st id fuel _ _ R2) as O. destruct (unify_unbound_type fuel st t2 id) as [[|]| |]; try exact O.
    { exists TVar. split; [apply after_refl|]. split; [|exact I]. intros b. apply not_infinite; [apply O; reflexivity|exact Ne]. }
    assert (NO : ~ occurs id u2) by (intros X; apply O in X; discriminate).
    pose proof (generalise_spec fuel B st t2 u2 R2 (HN id eq_refl NO)) as G. destruct (generalise_variant fuel B st t2) as [[t2' st1]| |]; try exact G.
    destruct G as (A1 & R2' & C2 & V2 & SL). rewrite (NB c _ Hc Hv).
    assert (Hc1 : nth_error st1 c = Some (Unbound id)) by (specialize (SL c); rewrite Hc in SL; congruence).
    assert (NL' : the_link st1 t2' = None).
    { destruct t2' as [| | |d]; try reflexivity. assert (t2 = Var d) by (apply V2; reflexivity). subst t2. cbn in NL |- *. specialize (SL d).
      destruct (nth_error st d) as [[i|x|i]|]; try discriminate; try (rewrite <- SL; reflexivity). }
    pose proof (bind_link _ _ _ _ _ Hc1 (after_distinct _ _ _ A1 D) R2' NO NL') as A2.
    exists (single id u2). split; [eapply after_ext; [exact (after_trans _ _ _ _ _ A1 A2)|]; reflexivity|].
    split.
    + cbn [apply]. unfold single at 1. rewrite N.eqb_refl. symmetry. apply apply_single_absent. exact NO.
    + intros b U i. unfold single. destruct (N.eqb_spec i id) as [->|]; [|reflexivity]. symmetry. exact U.
  - assert (u1 = TGeneric g) by (inversion R1; congruence). subst u1.
    assert (Err1 : (forall b, ~ unifies b (TGeneric g) u2) -> unified st (Var c) t2 (TGeneric g) u2 (Err (CouldNotUnify (Var c) t2 None) st)).
    { intros NU. exists TVar. split; [apply after_refl|]. split; [exact NU|]. split; [eapply shown_var; eassumption|eapply shown_resolves; eassumption]. }
    destruct t2 as [d m n l w|l r|l|c2].
    + apply Err1. intros b U. inversion R2; subst. discriminate U.
    + apply Err1. intros b U. inversion R2; subst. discriminate U.
    + apply Err1. intros b U. inversion R2; subst. discriminate U.
    + inversion R2 as [? i H|? i H|? s ? H Rs| | |]; subst; rewrite H.
      * rewrite (NB c2 _ H I). exists (single i (TGeneric g)). split; [apply bind_generic; assumption|]. split.
        -- cbn [apply]. unfold single. rewrite N.eqb_refl. reflexivity.
        -- intros b U j. unfold single. destruct (N.eqb_spec j i) as [->|]; [|reflexivity]. exact U.
      * apply Err1. intros b U. unfold unifies in U. cbn in U. injection U as <-. pose proof (same_generic _ _ _ _ _ _ Hc H ES). discriminate.
      * cbn in NL. rewrite H in NL. discriminate.
Qed.
Lemma unified_flip st t1 t2 u1 u2 o : unified st t2 t1 u2 u1 o -> unified st t1 t2 u1 u2 (map_err flip_unify_error o).
Proof.
  destruct o as [st'|e st'| |]; cbn; try tauto.
  - intros (a & A & E & M). exists a. split; [exact A|]. split; [congruence|]. intros b U. apply M. symmetry. exact U.
  - intros (a & A & E & M). exists a. split; [exact A|]. split; [intros b U; apply (E b); symmetry; exact U|]. destruct e; cbn in *; tauto.
Qed.

(** Borrowed variables contain the second type. *)
Definition around (st : store) (B : list cell) (u : term) : Prop :=
  forall d, In d B -> exists t w, nth_error st d = Some (Link t) /\ resolves st (Var d) w /\ sub u w.
Lemma around_after st st' a B u : after st st' a -> around st B u -> around st' B (apply a u).
Proof.
  intros A H d Hd. destruct (H d Hd) as (t & w & Ht & Rw & S). destruct (after_link _ _ _ A _ _ Ht) as [t' Ht'].
  exists t', (apply a w). split; [exact Ht'|]. split; [apply (after_resolves _ _ _ A); exact Rw|apply sub_apply; exact S].
Qed.
Lemma around_sub st B u u' : around st B u -> sub u' u -> around st B u'.
Proof. intros H S d Hd. destruct (H d Hd) as (t & w & Ht & Rw & S'). exists t, w. split; [exact Ht|]. split; [exact Rw|]. eapply sub_trans; eassumption. Qed.

(** The arguments, one after the other. *)
Definition unified_list (st : store) (us us' : list term) (Q : unify_error -> Prop) (o : outcome) : Prop :=
  match o with
  | Ok st' => exists a, after st st' a /\ map (apply a) us = map (apply a) us' /\ forall b, map (apply b) us = map (apply b) us' -> forall i, apply b (a i) = b i
  | Err e st' => exists a, after st st' a /\ (forall b, map (apply b) us <> map (apply b) us') /\ Q e
  | Panic => False
  | OutOfFuel => True
  end.
Lemma unified_weaken (f : unify_error -> unify_error) (Q : unify_error -> Prop) st us us' o : (forall e, Q (f e)) ->
  unified_list st us us' (fun _ => True) o -> unified_list st us us' Q (map_err f o).
Proof. intros H. destruct o; cbn; try tauto. intros (a & A & N & _). eauto. Qed.
Lemma each_pair_spec B (Q : unify_error -> Prop) g f : (forall i a a' e, Q (f i a a' e)) ->
  (forall st t1 t2 u1 u2, distinct st -> resolves st t1 u1 -> resolves st t2 u2 -> around st B u2 -> unified st t1 t2 u1 u2 (g st t1 t2)) ->
  forall l l' i st us us', distinct st -> length l = length l' -> Forall2 (resolves st) l us -> Forall2 (resolves st) l' us' ->
  (forall u, In u us' -> around st B u) ->
  unified_list st us us' Q (each_pair (fun i st a a' => map_err (f i a a') (g st a a')) i st l l').
Proof.
  intros HQ IH. induction l as [|t l IHl]; intros [|t' l'] i st us us' D L R R' HB; try discriminate;
    inversion R as [|? u ? us0 Rt Rl]; subst; inversion R' as [|? u' ? us1 Rt' Rl']; subst; cbn [each_pair].
  - exists TVar. split; [apply after_refl|]. split; [reflexivity|]. intros b _ j. reflexivity.
  - pose proof (IH st t t' u u' D Rt Rt' (HB u' (or_introl eq_refl))) as X. destruct (g st t t') as [st1|e st1| |]; cbn [map_err]; try exact X.
    + destruct X as (a & A & E & M).
      assert (Rl1 : Forall2 (resolves st1) l (map (apply a) us0)).
      { apply Forall2_map_r. eapply Forall2_imp; [|exact Rl]. intros x y. apply (after_resolves _ _ _ A). }
      assert (Rl1' : Forall2 (resolves st1) l' (map (apply a) us1)).
      { apply Forall2_map_r. eapply Forall2_imp; [|exact Rl']. intros x y. apply (after_resolves _ _ _ A). }
      assert (HB1 : forall w, In w (map (apply a) us1) -> around st1 B w).
      { intros w Hw. apply in_map_iff in Hw. destruct Hw as (w0 & <- & Hw). eapply around_after; [exact A|]. apply HB. right. exact Hw. }
      specialize (IHl l' (S i) st1 _ _ (after_distinct _ _ _ A D) (eq_add_S _ _ L) Rl1 Rl1' HB1).
      assert (MM : forall b, unifies b u u' -> forall ws, map (apply b) (map (apply a) ws) = map (apply b) ws).
      { intros b U ws. rewrite map_map. apply map_ext. intros w. rewrite apply_apply. apply apply_ext. intros j _. apply M. exact U. }
      destruct (each_pair _ (S i) st1 l l') as [st2|e st2| |]; try exact IHl.
      * destruct IHl as (a2 & A2 & E2 & M2). exists (fun i => apply a2 (a i)). split; [exact (after_trans _ _ _ _ _ A A2)|]. split.
        -- cbn [map]. f_equal; [rewrite <- !apply_apply; congruence|]. rewrite !map_map in E2. erewrite map_ext; [|intros x; symmetry; apply apply_apply].
           rewrite E2. apply map_ext. intros x. apply apply_apply.
        -- intros b Hb j. cbn [map] in Hb. injection Hb as Hu Hus. rewrite apply_apply.
           assert (U2 : map (apply b) (map (apply a) us0) = map (apply b) (map (apply a) us1)) by (rewrite !MM by exact Hu; exact Hus).
           rewrite (apply_ext _ b) by (intros k _; apply M2; exact U2). apply M. exact Hu.
      * destruct IHl as (a2 & A2 & N2 & Qe). exists (fun i => apply a2 (a i)). split; [exact (after_trans _ _ _ _ _ A A2)|]. split; [|exact Qe].
        intros b Hb. cbn [map] in Hb. injection Hb as Hu Hus. apply (N2 b). rewrite !MM by exact Hu. exact Hus.
    + destruct X as (a & A & N & _). exists a. split; [exact A|]. split; [|apply HQ]. intros b Hb. cbn [map] in Hb. injection Hb as Hu Hus. exact (N b Hu).
Qed.

Lemma around_reaches st B t u d : around st B u -> In d B -> resolves st t u -> reaches st t d -> is_var t = false -> False.
Proof.
  intros H Hd R X V. destruct (H d Hd) as (t' & w & Ht & Rw & S). destruct (resolves_reaches _ _ _ _ R X) as (w' & Rw' & S' & Lt).
  rewrite (resolves_same _ _ _ Rw _ Rw') in *. specialize (Lt V). pose proof (sub_size _ _ S). lia.
Qed.
Lemma shown_the_link st t c s x : the_link st t = Some (c, s) -> shown st s x -> shown st t x.
Proof. destruct t as [| | |d]; cbn; try discriminate. destruct (nth_error st d) as [[i|y|i]|] eqn:E; try discriminate. intros [= <- <-]. apply shown_link. exact E. Qed.
Lemma the_link_some st t c s : the_link st t = Some (c, s) -> t = Var c /\ nth_error st c = Some (Link s).
Proof. destruct t as [| | |d]; cbn; try discriminate. destruct (nth_error st d) as [[i|y|i]|] eqn:E; try discriminate. intros [= <- <-]. split; [reflexivity|exact E]. Qed.
Lemma unified_list_one st t1 t2 u1 u2 us us' (Q : unify_error -> Prop) o (F : forall b, unifies b u1 u2 <-> map (apply b) us = map (apply b) us') :
  (forall e, Q e -> blames st t1 t2 e) -> unified_list st us us' Q o -> unified st t1 t2 u1 u2 o.
Proof.
  intros HQ. destruct o as [st'|e st'| |]; cbn; try tauto.
  - intros (a & A & E & M). exists a. split; [exact A|]. split; [apply F; exact E|]. intros b U. apply M. apply F. exact U.
  - intros (a & A & E & M). exists a. split; [exact A|]. split; [intros b U; apply (E b); apply F; exact U|]. apply HQ. exact M.
Qed.
Lemma resolves_length {A B} (P : A -> B -> Prop) l us : Forall2 P l us -> length us = length l.
Proof. induction 1; cbn; congruence. Qed.
Lemma lengths_differ {A B} (P : A -> B -> Prop) (f : B -> B) l us l2 us2 : Forall2 P l us -> Forall2 P l2 us2 -> length l <> length l2 -> map f us = map f us2 -> False.
Proof. intros H H2 L U. apply L. rewrite <- (resolves_length _ _ _ H), <- (resolves_length _ _ _ H2), <- (map_length f us), U. apply map_length. Qed.
Lemma unify_spec fuel : forall B st t1 t2 u1 u2, distinct st -> resolves st t1 u1 -> resolves st t2 u2 -> around st B u2 ->
  unified st t1 t2 u1 u2 (unify fuel B st t1 t2).
Proof.
  induction fuel as [|fuel IH]; intros B st t1 t2 u1 u2 D R1 R2 HB; [exact I|].
  assert (HL : forall d, In d B -> exists t, nth_error st d = Some (Link t)) by (intros d Hd; destruct (HB d Hd) as (t & w & Ht & _); eauto).
  destruct (the_link st t2) as [[c t]|] eqn:NL.
  { cbn [unify]. pose proof (same_spec st fuel _ _ _ _ R1 R2) as Sm. destruct (same fuel st t1 t2) as [[|]| |]; try exact Sm.
    { subst u2. exists TVar. split; [apply after_refl|]. split; [reflexivity|]. intros b _ i. reflexivity. }
    rewrite NL. destruct (the_link_some _ _ _ _ NL) as [-> Hc].
    assert (Rt : resolves st t u2) by (eapply resolves_link_inv; eassumption).
    assert (HB' : around st (c :: B) u2).
    { intros d [<-|Hd]; [|apply HB; exact Hd]. exists t, u2. split; [exact Hc|]. split; [exact R2|apply sub_here]. }
    pose proof (IH (c :: B) st t1 t u1 u2 D R1 Rt HB') as X. destruct (unify fuel (c :: B) st t1 t) as [st'|e st'| |]; try exact X.
    destruct X as (a & A & N & Bl). exists a. split; [exact A|]. split; [exact N|]. destruct e; [exact I|]. destruct Bl as [? ?]. split; [assumption|]. eapply shown_the_link; eassumption. }
  destruct t1 as [d m n l v|l r|l|c].
  4: { destruct (nth_error st c) as [v|] eqn:Hc; [|inversion R1; congruence].
    destruct v as [id|t|g].
    - eapply unify_bind; try eassumption; [exact I|]. intros id' [= <-] NO d Hd X. destruct t2 as [| | |c2]; try (eapply around_reaches; try eassumption; reflexivity).
      destruct X as (x & [<-|[]] & X). destruct (HL d Hd) as [y Hy]. inversion X as [|? ? ? z Hz _ _]; subst; cbn in NL; [rewrite Hy in NL|rewrite Hz in NL]; discriminate.
    - cbn [unify]. pose proof (same_spec st fuel _ _ _ _ R1 R2) as Sm. destruct (same fuel st (Var c) t2) as [[|]| |]; try exact Sm.
      { subst u2. exists TVar. split; [apply after_refl|]. split; [reflexivity|]. intros b _ i. reflexivity. }
      rewrite NL, Hc. assert (Rt : resolves st t u1) by (eapply resolves_link_inv; eassumption).
      pose proof (IH B st t t2 u1 u2 D Rt R2 HB) as X. destruct (unify fuel B st t t2) as [st'|e st'| |]; try exact X.
      2: { destruct X as (a & A & N & Bl). exists a. split; [exact A|]. split; [exact N|]. destruct e; [exact I|]. destruct Bl as [? ?]. split; [eapply shown_link; eassumption|assumption]. }
      destruct X as (a & A & E & M). destruct (mem c B); [exists a; auto|].
      assert (NA : ~ alias st' c t) by (intros Al; apply (no_cycle _ _ _ _ Hc Rt); apply alias_reaches;
        pose proof (alias_after _ _ _ _ _ _ A Hc Al) as Y; destruct t as [| | |d]; try contradiction; destruct Y as [->|(e & Ae & He)]; [constructor|econstructor; eassumption]).
      pose proof (after_resolves _ _ _ A _ _ Rt) as Rt'.
      pose proof (collapse_spec st' c fuel t _ Rt' NA) as C. destruct (collapse_links fuel c st' t) as [t'| |]; try exact C.
      destruct C as (Rt1 & NL1 & NV).
      destruct (after_link _ _ _ A _ _ Hc) as [s Hs].
      assert (Rs : resolves st' s (apply a u1)) by (eapply resolves_link_inv; [exact Hs|]; apply (after_resolves _ _ _ A); exact R1).
      assert (NR : ~ reaches st' t' c).
      { intros X. destruct t' as [| | |c2].
        1-3: destruct (resolves_reaches _ _ _ _ Rt1 X) as (w & Rw & _ & Lt); specialize (Lt eq_refl);
             rewrite (resolves_same _ _ _ (resolves_link _ _ _ _ Hs Rs) _ Rw) in Lt; lia.
        destruct X as (x & [<-|[]] & X). inversion X as [|? ? ? z Hz _ _]; subst; [congruence|]. cbn in NL1. rewrite Hz in NL1. discriminate. }
      assert (NX : forall d x, t' = Var d -> nth_error st' d = Some (Link x) -> s = Var d) by (intros d x -> Hx; cbn in NL1; rewrite Hx in NL1; discriminate).
      exists a. split; [|auto]. eapply after_ext; [exact (after_trans _ _ _ _ _ A (relink _ _ _ _ _ Hs Rs Rt1 NR NX))|]. intros i. apply apply_id.
    - eapply unify_bind; try eassumption; [exact I|]. intros id' [=]. }
  all: match goal with |- unified _ ?t _ _ _ _ => set (t1 := t) in * end.
  all: destruct t2 as [d2 m2 n2 l2 v2|l2 r2|l2|c2].
  all: cbn [unify]; pose proof (same_spec st fuel _ _ _ _ R1 R2) as Sm;
    match goal with |- context[same ?f ?s ?x ?y] => destruct (same f s x y) as [[|]| |] end; try exact Sm;
    try (subst u2; exists TVar; split; [apply after_refl|]; split; [reflexivity|]; intros b _ i; reflexivity);
    rewrite NL; cbn [is_var t1].
  (* against a variable *)
  4, 8, 12: apply unified_flip; destruct fuel as [|fuel]; [exact I|]; destruct (nth_error st c2) as [v2|] eqn:H2; [|inversion R2; congruence];
      (eapply unify_bind; try eassumption; try reflexivity; [cbn in NL; rewrite H2 in NL; destruct v2; [exact I|discriminate|exact I]|]);
      intros id -> NO d' Hd' X; apply NO; destruct (HB d' Hd') as (t & w & Ht & Rw & S);
      destruct (resolves_reaches _ _ _ _ R1 X) as (w' & Rw' & S' & _); rewrite (resolves_same _ _ _ Rw _ Rw') in S';
      rewrite (resolves_unbound_inv _ _ _ _ H2 R2) in S; eapply sub_trans; eassumption.
  all: inversion R1; subst; inversion R2; subst.
  (* different kinds of type *)
  all: try (exists TVar; split; [apply after_refl|]; split; [intros b U; discriminate U|split; apply shown_other; reflexivity]).
  - destruct (text_eqb m m2) eqn:Em; [apply text_eqb_eq in Em; subst m2|].
    2: { exists TVar; split; [apply after_refl|]; split; [intros b U; injection U as -> _ _; rewrite text_eqb_refl in Em; discriminate|split; apply shown_other; reflexivity]. }
    destruct (text_eqb n n2) eqn:En; [apply text_eqb_eq in En; subst n2|].
    2: { exists TVar; split; [apply after_refl|]; split; [intros b U; injection U as -> _; rewrite text_eqb_refl in En; discriminate|split; apply shown_other; reflexivity]. }
    destruct (Nat.eqb_spec (length l) (length l2)) as [L|L].
    2: { exists TVar; split; [apply after_refl|]; split; [intros b U; injection U as U; eapply lengths_differ; [| |exact L|exact U]; eassumption|split; apply shown_other; reflexivity]. }
    cbn [andb].
    eapply unified_list_one with (Q := blames st t1 (Named d2 m n l2 v2)); [|intros e He; exact He|].
    + intros b. unfold unifies. cbn [apply]. split; [intros U; injection U as U; exact U|congruence].
    + apply (each_pair_spec B _ (unify fuel B)); try eassumption.
      * intros i x x' e. destruct e; [exact I|]. split; apply shown_other; reflexivity.
      * intros; apply IH; assumption.
      * intros u Hu. eapply around_sub; [exact HB|]. eapply sub_named; [exact Hu|apply sub_here].
  - destruct (Nat.eqb_spec (length l) (length l2)) as [L|L].
    2: { exists TVar; split; [apply after_refl|]; split; [intros b U; injection U as U _; eapply lengths_differ; [| |exact L|exact U]; eassumption|split; apply shown_other; reflexivity]. }
    match goal with |- unified _ _ _ (TFn ?us ?u) (TFn ?us' ?u') _ => rename us into us1; rename u into r1'; rename us' into us2; rename u' into r2' end.
    assert (X : unified_list st us1 us2 (blames st t1 (Fn l2 r2)) (each_pair (fun i st a a' => map_err (fun _ => CouldNotUnify t1 (Fn l2 r2) (Some (Argument a a' i))) (unify fuel B st a a')) 0 st l l2)).
    { apply (each_pair_spec B _ (unify fuel B)) with (f := fun i a a' _ => CouldNotUnify t1 (Fn l2 r2) (Some (Argument a a' i))); try eassumption.
      * intros i x x' e. split; apply shown_other; reflexivity.
      * intros; apply IH; assumption.
      * intros u Hu. eapply around_sub; [exact HB|]. eapply sub_fn; [exact Hu|apply sub_here]. }
    destruct (each_pair _ 0 st l l2) as [st1|e st1| |]; try exact X.
    2: { destruct X as (a & A & N & Bl). exists a. split; [exact A|]. split; [|exact Bl]. intros b U. injection U as U _. exact (N b U). }
    destruct X as (a & A & E & M).
    assert (HB1 : around st1 B (apply a r2')) by (eapply around_after; [exact A|]; eapply around_sub; [exact HB|]; apply sub_return; apply sub_here).
    pose proof (IH B st1 r r2 (apply a r1') (apply a r2') (after_distinct _ _ _ A D) (after_resolves _ _ _ A r r1' ltac:(assumption)) (after_resolves _ _ _ A r2 r2' ltac:(assumption)) HB1) as X.
    assert (MM : forall b, map (apply b) us1 = map (apply b) us2 -> forall w, apply b (apply a w) = apply b w).
    { intros b U w. rewrite apply_apply. apply apply_ext. intros j _. apply M. exact U. }
    destruct (unify fuel B st1 r r2) as [st2|e st2| |]; try exact X; cbn [map_err].
    + destruct X as (a2 & A2 & E2 & M2). exists (fun i => apply a2 (a i)). split; [exact (after_trans _ _ _ _ _ A A2)|]. split.
      * cbn [apply]. f_equal; [|rewrite <- !apply_apply; exact E2]. transitivity (map (apply a2) (map (apply a) us1)); [rewrite map_map; apply map_ext; intros x; symmetry; apply apply_apply|].
        rewrite E, map_map. apply map_ext. intros x. apply apply_apply.
      * intros b U j. injection U as U1 U2. rewrite apply_apply.
        rewrite (apply_ext _ b) by (intros k _; apply M2; unfold unifies; rewrite !MM by exact U1; exact U2). apply M. exact U1.
    + destruct X as (a2 & A2 & N2 & _). exists (fun i => apply a2 (a i)). split; [exact (after_trans _ _ _ _ _ A A2)|]. split.
      * intros b U. injection U as U1 U2. apply (N2 b). unfold unifies. rewrite !MM by exact U1. exact U2.
      * split; apply shown_other; reflexivity.
  - destruct (Nat.eqb_spec (length l) (length l2)) as [L|L].
    2: { exists TVar; split; [apply after_refl|]; split; [intros b U; injection U as U; eapply lengths_differ; [| |exact L|exact U]; eassumption|split; apply shown_other; reflexivity]. }
    eapply unified_list_one with (Q := blames st t1 (Tuple l2)); [|intros e He; exact He|].
    + intros b. unfold unifies. cbn [apply]. split; [intros U; injection U as U; exact U|congruence].
    + apply (each_pair_spec B _ (unify fuel B)); try eassumption.
      * intros i x x' e. destruct e; [exact I|]. split; apply shown_other; reflexivity.
      * intros; apply IH; assumption.
      * intros u Hu. eapply around_sub; [exact HB|]. eapply sub_tuple; [exact Hu|apply sub_here].
Qed.

(** ** Enough fuel *)
Definition settles {X} (bad : X) (f : nat -> X) : Prop := exists n o, o <> bad /\ forall fuel, n <= fuel -> f fuel = o.
Lemma settles_const {X} (bad o : X) : o <> bad -> settles bad (fun _ => o).
Proof. intros H. exists 0, o. auto. Qed.
Ltac settled := solve [exists 0; eexists; split; [|intros; cbn; reflexivity]; discriminate].
Ltac pointwise := intros; cbn; match goal with |- match ?x with _ => _ end = _ => destruct x as [[|]| |]; reflexivity end.
Lemma settles_more {X} (bad : X) f g : (forall fuel, g (S fuel) = f fuel) -> settles bad f -> settles bad g.
Proof. intros E (n & o & Ne & H). exists (S n), o. split; [exact Ne|]. intros [|fuel] L; [lia|]. rewrite E. apply H. lia. Qed.
Lemma settles_bind {X Y} (bad : X) (bad' : Y) (f : nat -> X) (k : X -> nat -> Y) (g : nat -> Y) : (forall fuel, g fuel = k (f fuel) fuel) -> settles bad f ->
  (forall o fuel, o <> bad -> f fuel = o -> settles bad' (k o)) -> settles bad' g.
Proof.
  intros E (n & o & Ne & H) K. destruct (K o n Ne (H n (le_n n))) as (m & o' & Ne' & H'). exists (n + m), o'. split; [exact Ne'|]. intros fuel L. rewrite E, H by lia. apply H'. lia.
Qed.
Lemma settles_all_same (f : nat -> type -> type -> answer bool) l : forall l', (forall t t', In t l -> In t' l' -> settles NoFuel (fun fuel => f fuel t t')) -> settles NoFuel (fun fuel => all_same (f fuel) l l').
Proof.
  induction l as [|t l IH]; intros [|t' l'] H; try (settled).
  eapply (settles_bind NoFuel NoFuel (fun fuel => f fuel t t') (fun o fuel => match o with Answer true => all_same (f fuel) l l' | r => r end)); [pointwise|apply H; left; reflexivity|].
  intros [[|]| |] fuel Ne _; try congruence; try (settled). apply IH. intros x x' I I'. apply H; right; assumption.
Qed.
Lemma settles_same st : forall n t1, steps st t1 n -> forall t2, settles NoFuel (fun fuel => same fuel st t1 t2).
Proof.
  induction n as [n IH] using lt_wf_ind. intros t1 H t2.
  assert (HL : forall l k, k < n -> steps_list st l k -> forall l', settles NoFuel (fun fuel => all_same (same fuel st) l l')).
  { intros l k L Hl l'. apply (settles_all_same (fun fuel => same fuel st)). intros t t' It _. destruct (steps_list_in _ _ _ Hl t It) as (m & Hm & Lm). eapply IH; [|exact Hm]. lia. }
  inversion H as [c v Hc V|c t k Hc Ht|d m nm l v k Hl|l r k j Hl Hr|l k Hl]; subst.
  - eapply settles_more; [intros fuel; cbn [same]; rewrite Hc; reflexivity|]. destruct t2 as [| | |c']; try (settled).
    destruct v; try contradiction; destruct (nth_error st c') as [[]|]; settled.
  - eapply settles_more; [intros fuel; cbn [same]; rewrite Hc; reflexivity|]. destruct t2 as [| | |c']; try (settled).
    destruct (nth_error st c') as [[i|t'|i]|]; try (settled). eapply IH; [|exact Ht]. lia.
  - eapply settles_more; [intros fuel; cbn [same]; reflexivity|]. destruct t2; try (settled). destruct (_ && _); [|settled]. apply HL with (k := k); [lia|exact Hl].
  - eapply settles_more; [intros fuel; cbn [same]; reflexivity|]. destruct t2 as [|l' r'| |]; try (settled).
    eapply (settles_bind NoFuel NoFuel (fun fuel => all_same (same fuel st) l l') (fun o fuel => match o with Answer true => same fuel st r r' | r => r end)); [pointwise|apply HL with (k := k); [lia|exact Hl]|].
    intros [[|]| |] fuel Ne _; try congruence; try (settled). eapply IH; [|exact Hr]. lia.
  - eapply settles_more; [intros fuel; cbn [same]; reflexivity|]. destruct t2; try (settled). apply HL with (k := k); [lia|exact Hl].
Qed.
Lemma settles_any (f : nat -> type -> answer bool) l : (forall t, In t l -> settles NoFuel (fun fuel => f fuel t)) -> settles NoFuel (fun fuel => any (f fuel) l).
Proof.
  induction l as [|t l IH]; intros H; [settled|].
  eapply (settles_bind NoFuel NoFuel (fun fuel => f fuel t) (fun o fuel => match o with Answer false => any (f fuel) l | r => r end)); [pointwise|apply H; left; reflexivity|].
  intros [[|]| |] fuel Ne _; try congruence; try (settled). apply IH. intros x Ix. apply H; right; assumption.
Qed.
Lemma settles_occurs st id : forall n t, steps st t n -> settles NoFuel (fun fuel => unify_unbound_type fuel st t id).
Proof.
  induction n as [n IH] using lt_wf_ind. intros t1 H.
  assert (HL : forall l k, k < n -> steps_list st l k -> settles NoFuel (fun fuel => any (fun a => unify_unbound_type fuel st a id) l)).
  { intros l k L Hl. apply (settles_any (fun fuel a => unify_unbound_type fuel st a id)). intros t It. destruct (steps_list_in _ _ _ Hl t It) as (m & Hm & Lm). eapply IH; [|exact Hm]. lia. }
  inversion H as [c v Hc V|c t k Hc Ht|d m nm l v k Hl|l r k j Hl Hr|l k Hl]; subst; (eapply settles_more; [intros fuel; cbn [unify_unbound_type]; try rewrite Hc; reflexivity|]).
  - destruct v; try contradiction; settled.
  - eapply IH; [|exact Ht]. lia.
  - apply HL with (k := k); [lia|exact Hl].
  - eapply (settles_bind NoFuel NoFuel (fun fuel => any (fun a => unify_unbound_type fuel st a id) l) (fun o fuel => match o with Answer false => unify_unbound_type fuel st r id | r => r end)); [pointwise|apply HL with (k := k); [lia|exact Hl]|].
    intros [[|]| |] fuel Ne _; try congruence; try (settled). eapply IH; [|exact Hr]. lia.
  - apply HL with (k := k); [lia|exact Hl].
Qed.
Lemma settles_collapse st taken : forall n t, steps st t n -> settles NoFuel (fun fuel => collapse_links fuel taken st t).
Proof.
  induction n as [n IH] using lt_wf_ind. intros t1 H.
  inversion H as [c v Hc V|c t k Hc Ht|d m nm l v k Hl|l r k j Hl Hr|l k Hl]; subst; (eapply settles_more; [intros fuel; cbn [collapse_links]; try rewrite Hc; reflexivity|]); try settled;
    destruct (Nat.eqb c taken); try settled.
  - destruct v; try contradiction; settled.
  - eapply IH; [|exact Ht]. lia.
Qed.
Lemma settles_each borrowed (f : nat -> store -> type -> answer (type * store)) (Z : term -> Prop) l :
  (forall fuel st t u, resolves st t u -> (forall c, In c borrowed -> ~ reaches st t c) -> forgot st t u (f fuel st t)) ->
  (forall st t u, resolves st t u -> (forall c, In c borrowed -> ~ reaches st t c) -> Z u -> settles NoFuel (fun fuel => f fuel st t)) ->
  forall st us, Forall2 (resolves st) l us -> (forall u, In u us -> Z u) -> (forall c, In c borrowed -> ~ exists d, In d (flat_map cells l) /\ reach st d c) ->
  settles NoFuel (fun fuel => each (f fuel) st l).
Proof.
  intros F H. induction l as [|t l IH]; intros st us R HZ N; inversion R as [|? u ? us0 Rt Rl]; subst; [settled|].
  assert (Nt : forall c, In c borrowed -> ~ reaches st t c).
  { intros c Hc (d & Hd & X). apply (N c Hc). exists d. split; [cbn; apply in_or_app; left; exact Hd|exact X]. }
  eapply (settles_bind NoFuel NoFuel (fun fuel => f fuel st t) (fun o fuel => match o with Answer (a, st) => match each (f fuel) st l with Answer (l, st) => Answer (a :: l, st) | Panics => Panics | NoFuel => NoFuel end | Panics => Panics | NoFuel => NoFuel end)).
  - intros fuel. reflexivity.
  - eapply H; [exact Rt|exact Nt|]. apply HZ. left. reflexivity.
  - intros o fuel Ne E. pose proof (F fuel st t u Rt Nt) as X. rewrite E in X. destruct o as [[t' st1]| |]; [|contradiction|congruence]. destruct X as (A1 & R1 & C1 & _ & S1).
    assert (Rl1 : Forall2 (resolves st1) l us0) by (eapply Forall2_imp; [|exact Rl]; intros x y Rxy; eapply after_id; [exact A1|reflexivity|exact Rxy]).
    assert (Nl : forall c, In c borrowed -> ~ exists d, In d (flat_map cells l) /\ reach st1 d c).
    { intros c Hc (d & Hd & X). apply (N c Hc). exists d. split; [cbn; apply in_or_app; right; exact Hd|eapply same_links_reach; eassumption]. }
    eapply (settles_bind NoFuel NoFuel (fun fuel => each (f fuel) st1 l) (fun o fuel => match o with Answer (l, st) => Answer (t' :: l, st) | Panics => Panics | NoFuel => NoFuel end)).
    + intros fuel'. reflexivity.
    + apply (IH st1 us0 Rl1); [|exact Nl]. intros w Hw. apply HZ. right. exact Hw.
    + intros [[l' st2]| |] fuel' Ne' _; try congruence; settled.
Qed.
Lemma settles_generalise : forall k borrowed st t u, size u <= k -> resolves st t u -> (forall c, In c borrowed -> ~ reaches st t c) ->
  settles NoFuel (fun fuel => generalise_variant fuel borrowed st t).
Proof.
  induction k as [k IHk] using lt_wf_ind. intros borrowed st t u Hk R. destruct (steps_exist _ _ _ R) as [n Hn]. revert borrowed t R Hn.
  induction n as [n IHn] using lt_wf_ind. intros borrowed t R Hn N.
  assert (HL : forall l us, size u > list_sum (map size us) -> Forall2 (resolves st) l us -> (forall c, In c borrowed -> ~ exists d, In d (flat_map cells l) /\ reach st d c) ->
    settles NoFuel (fun fuel => each (generalise_variant fuel borrowed) st l)).
  { intros l us Sz Rl Nl. apply (settles_each borrowed (fun fuel => generalise_variant fuel borrowed) (fun w => size w < k) l) with (us := us); try assumption.
    - intros fuel. apply generalise_spec.
    - intros st' t' u' R' N' Z'. eapply IHk; [exact Z'|apply le_n|exact R'|exact N'].
    - intros w Hw. pose proof (size_in _ _ Hw). lia. }
  destruct t as [d m nm l v|l r|l|c].
  - eapply settles_more; [intros fuel; reflexivity|]. settled.
  - inversion R as [| | | |? ? us w Rl Rr|]; subst. cbn [size] in *.
    assert (Nl : forall c, In c borrowed -> ~ exists d, In d (flat_map cells l) /\ reach st d c).
    { intros c Hc (d & Hd & X). apply (N c Hc). exists d. split; [cbn; apply in_or_app; left; exact Hd|exact X]. }
    eapply settles_more; [intros fuel; reflexivity|].
    eapply (settles_bind NoFuel NoFuel (fun fuel => each (generalise_variant fuel borrowed) st l)
      (fun o fuel => match o with Answer (l, st) => match generalise_variant fuel borrowed st r with Answer (r, st) => Answer (Fn l r, st) | Panics => Panics | NoFuel => NoFuel end | Panics => Panics | NoFuel => NoFuel end)).
    + intros fuel. reflexivity.
    + apply (HL l us); [lia|exact Rl|exact Nl].
    + intros o fuel Ne E. pose proof (each_spec borrowed (generalise_variant fuel borrowed) l st us Rl Nl (generalise_spec fuel borrowed)) as X. rewrite E in X.
      destruct o as [[l' st1]| |]; [|contradiction|congruence]. destruct X as (A1 & R1 & C1 & S1).
      assert (Nr : forall c, In c borrowed -> ~ reaches st1 r c).
      { intros c Hc (d & Hd & X). apply (N c Hc). exists d. split; [cbn; apply in_or_app; right; exact Hd|eapply same_links_reach; eassumption]. }
      assert (Rr1 : resolves st1 r w) by (eapply after_id; [exact A1|reflexivity|exact Rr]).
      eapply (settles_bind NoFuel NoFuel (fun fuel => generalise_variant fuel borrowed st1 r) (fun o fuel => match o with Answer (r, st) => Answer (Fn l' r, st) | Panics => Panics | NoFuel => NoFuel end)).
      * intros fuel'. reflexivity.
      * eapply (IHk (size w)); [lia|apply le_n|exact Rr1|exact Nr].
      * intros [[r' st2]| |] fuel' Ne' _; try congruence; settled.
  - inversion R as [| | | | |? us Rl]; subst. cbn [size] in *.
    eapply settles_more; [intros fuel; reflexivity|].
    eapply (settles_bind NoFuel NoFuel (fun fuel => each (generalise_variant fuel borrowed) st l) (fun o fuel => match o with Answer (l, st) => Answer (Tuple l, st) | Panics => Panics | NoFuel => NoFuel end)).
    + intros fuel. reflexivity.
    + apply (HL l us); [lia|exact Rl|]. intros c Hc (d & Hd & X). apply (N c Hc). exists d. split; [exact Hd|exact X].
    + intros [[l' st2]| |] fuel' Ne' _; try congruence; settled.
  - destruct (mem c borrowed) eqn:M. { eapply settles_more; [intros fuel; cbn [generalise_variant]; rewrite M; reflexivity|]. settled. }
    inversion Hn as [? v Hc V|? t q Hc Ht| | |]; subst; (eapply settles_more; [intros fuel; cbn [generalise_variant]; rewrite M, Hc; reflexivity|]).
    { destruct v; try contradiction; settled. }
    assert (Rt : resolves st t u) by (eapply resolves_link_inv; eassumption).
    pose proof (no_cycle _ _ _ _ Hc Rt) as Nc.
    assert (Nt : forall d, In d (c :: borrowed) -> ~ reaches st t d).
    { intros d [<-|Hd]; [exact Nc|]. intros (e & He & X). apply (N d Hd). exists c. split; [left; reflexivity|]. eapply reach_more; eassumption. }
    eapply (settles_bind NoFuel NoFuel (fun fuel => generalise_variant fuel (c :: borrowed) st t) (fun o fuel => match o with Answer (t, st) => Answer (Var c, set st c (Link t)) | Panics => Panics | NoFuel => NoFuel end)).
    + intros fuel. reflexivity.
    + eapply IHn; [|exact Rt|exact Ht|exact Nt]. lia.
    + intros [[r' st2]| |] fuel' Ne' _; try congruence; settled.
Qed.
Lemma settles_unify_bind B st c v t2 u1 u2 : nth_error st c = Some v -> match v with Link _ => False | _ => True end -> the_link st t2 = None ->
  resolves st (Var c) u1 -> resolves st t2 u2 -> (forall id, v = Unbound id -> ~ occurs id u2 -> forall d, In d B -> ~ reaches st t2 d) ->
  settles OutOfFuel (fun fuel => unify fuel B st (Var c) t2).
Proof.
  intros Hc V NL R1 R2 HN. destruct (steps_exist _ _ _ R1) as [k1 K1]. destruct (steps_exist _ _ _ R2) as [k2 K2].
  destruct (settles_same st _ _ K1 t2) as (n1 & o1 & Ne1 & H1).
  destruct o1 as [[|]| |]; [| | |congruence].
  1: exists (S n1), (Ok st); split; [discriminate|]; intros [|fuel] L; [lia|]; cbn [unify]; rewrite H1 by lia; reflexivity.
  2: exists (S n1), Panic; split; [discriminate|]; intros [|fuel] L; [lia|]; cbn [unify]; rewrite H1 by lia; reflexivity.
  destruct v as [id|t|g]; [|contradiction|].
  - destruct (settles_occurs st id _ _ K2) as (n2 & o2 & Ne2 & H2).
    destruct o2 as [[|]| |]; [| | |congruence].
    1: exists (S (n1 + n2)); eexists; split; [|intros [|fuel] L; [lia|]; cbn [unify]; rewrite H1, NL, Hc, H2 by lia; reflexivity]; discriminate.
    2: exists (S (n1 + n2)); eexists; split; [|intros [|fuel] L; [lia|]; cbn [unify]; rewrite H1, NL, Hc, H2 by lia; reflexivity]; discriminate.
    assert (NO : ~ occurs id u2).
    { pose proof (occurs_spec st id n2 _ _ R2) as O. rewrite H2 in O by lia. intros X. apply O in X. discriminate. }
    destruct (settles_generalise _ B st t2 u2 (le_n _) R2 (HN id eq_refl NO)) as (n3 & o3 & Ne3 & H3).
    exists (S (n1 + n2 + n3)). eexists. split; [|intros [|fuel] L; [lia|]; cbn [unify]; rewrite H1, NL, Hc, H2, H3 by lia; reflexivity].
    destruct o3 as [[t' st']| |]; try congruence; try discriminate. destruct (mem c B); discriminate.
  - exists (S n1). eexists. split; [|intros [|fuel] L; [lia|]; cbn [unify]; rewrite H1, NL, Hc by lia; reflexivity].
    destruct t2 as [| | |c2]; try discriminate. destruct (nth_error st c2) as [[]|]; try discriminate. destruct (mem c2 B); discriminate.
Qed.
Lemma settles_each_pair B (F : nat -> type -> type -> unify_error -> unify_error) U Z :
  (forall st t1 t2 u1 u2, distinct st -> resolves st t1 u1 -> resolves st t2 u2 -> around st B u2 -> unbound st < U \/ unbound st <= U /\ size u1 + size u2 < Z ->
    settles OutOfFuel (fun fuel => unify fuel B st t1 t2)) ->
  forall l l' i st us us', distinct st -> Forall2 (resolves st) l us -> Forall2 (resolves st) l' us' -> (forall u, In u us' -> around st B u) ->
  (unbound st < U \/ unbound st <= U /\ forall u u', In u us -> In u' us' -> size u + size u' < Z) ->
  settles OutOfFuel (fun fuel => each_pair (fun i st a a' => map_err (F i a a') (unify fuel B st a a')) i st l l').
Proof.
  intros IH. induction l as [|t l IHl]; intros [|t' l'] i st us us' D R R' HB HZ; try settled.
  inversion R as [|? u ? us0 Rt Rl]; subst; inversion R' as [|? u' ? us1 Rt' Rl']; subst.
  assert (X : settles OutOfFuel (fun fuel => unify fuel B st t t')).
  { eapply IH; try eassumption; [apply HB; left; reflexivity|]. destruct HZ as [|[? HZ]]; [left; assumption|right]. split; [assumption|]. apply HZ; left; reflexivity. }
  destruct X as (n & o & Ne & H). pose proof (unify_spec n B st t t' u u' D Rt Rt' (HB u' (or_introl eq_refl))) as Sp. rewrite H in Sp by lia.
  destruct o as [st1|e st1| |]; [|exists n; eexists; split; [|intros fuel L; cbn [each_pair]; rewrite H by exact L; cbn [map_err]; reflexivity]; discriminate|contradiction|congruence].
  destruct Sp as (a & A & _).
  assert (Rl1 : Forall2 (resolves st1) l (map (apply a) us0)).
  { apply Forall2_map_r. eapply Forall2_imp; [|exact Rl]. intros x y. apply (after_resolves _ _ _ A). }
  assert (Rl1' : Forall2 (resolves st1) l' (map (apply a) us1)).
  { apply Forall2_map_r. eapply Forall2_imp; [|exact Rl']. intros x y. apply (after_resolves _ _ _ A). }
  assert (HB1 : forall w, In w (map (apply a) us1) -> around st1 B w).
  { intros w Hw. apply in_map_iff in Hw. destruct Hw as (w0 & <- & Hw). eapply around_after; [exact A|]. apply HB. right. exact Hw. }
  assert (HZ1 : unbound st1 < U \/ unbound st1 <= U /\ forall w w', In w (map (apply a) us0) -> In w' (map (apply a) us1) -> size w + size w' < Z).
  { pose proof (after_count _ _ _ A) as C. destruct HZ as [|[? HZ]]; [left; lia|]. destruct C as [C|[C C']]; [left; lia|]. right. split; [lia|].
    intros w w' Hw Hw'. apply in_map_iff in Hw, Hw'. destruct Hw as (x & <- & Hx), Hw' as (x' & <- & Hx').
    rewrite !apply_unchanged by (intros; apply C'). apply HZ; right; assumption. }
  destruct (IHl l' (S i) st1 _ _ (after_distinct _ _ _ A D) Rl1 Rl1' HB1 HZ1) as (m & o & Ne' & H').
  exists (n + m), o. split; [exact Ne'|]. intros fuel L. cbn [each_pair]. rewrite H by lia. cbn [map_err]. apply H'. lia.
Qed.

Lemma settles_unify : forall U Z n B st t1 t2 u1 u2 k1 k2, unbound st <= U -> size u1 + size u2 <= Z -> k1 + k2 <= n ->
  distinct st -> resolves st t1 u1 -> resolves st t2 u2 -> around st B u2 -> steps st t1 k1 -> steps st t2 k2 ->
  settles OutOfFuel (fun fuel => unify fuel B st t1 t2).
Proof.
  induction U as [U IHU] using lt_wf_ind. induction Z as [Z IHZ] using lt_wf_ind. induction n as [n IHn] using lt_wf_ind.
  intros B st t1 t2 u1 u2 k1 k2 HU HZ Hn D R1 R2 HB K1 K2.
  assert (Rec : forall st t1 t2 u1 u2, distinct st -> resolves st t1 u1 -> resolves st t2 u2 -> around st B u2 -> unbound st < U \/ unbound st <= U /\ size u1 + size u2 < Z ->
    settles OutOfFuel (fun fuel => unify fuel B st t1 t2)).
  { clear - IHU IHZ. intros st t1 t2 u1 u2 D R1 R2 HB H. destruct (steps_exist _ _ _ R1) as [j1 J1]. destruct (steps_exist _ _ _ R2) as [j2 J2].
    destruct H as [H|[H H']]; [eapply (IHU _ H); try eassumption; apply le_n|eapply (IHZ _ H'); try eassumption; apply le_n]. }
  assert (HL : forall d, In d B -> exists t, nth_error st d = Some (Link t)) by (intros d Hd; destruct (HB d Hd) as (t & w & Ht & _); eauto).
  destruct (settles_same st _ _ K1 t2) as (n1 & o1 & Ne1 & H1).
  destruct o1 as [[|]| |]; [| | |congruence].
  1: exists (S n1), (Ok st); split; [discriminate|]; intros [|fuel] L; [lia|]; cbn [unify]; rewrite H1 by lia; reflexivity.
  2: exists (S n1), Panic; split; [discriminate|]; intros [|fuel] L; [lia|]; cbn [unify]; rewrite H1 by lia; reflexivity.
  destruct (the_link st t2) as [[c t]|] eqn:NL.
  { destruct (the_link_some _ _ _ _ NL) as [-> Hc].
    assert (Rt : resolves st t u2) by (eapply resolves_link_inv; eassumption).
    assert (HB' : around st (c :: B) u2).
    { intros d [<-|Hd]; [|apply HB; exact Hd]. exists t, u2. split; [exact Hc|]. split; [exact R2|apply sub_here]. }
    inversion K2 as [? v Hv V|? t' k Ht' Kt| | |]; subst; [assert (v = Link t) by congruence; subst v; contradiction|]. assert (t' = t) by congruence. subst t'.
    destruct (IHn (k1 + k) ltac:(lia) (c :: B) st t1 t u1 u2 k1 k HU HZ (le_n _) D R1 Rt HB' K1 Kt) as (n2 & o2 & Ne2 & H2).
    exists (S (n1 + n2)), o2. split; [exact Ne2|]. intros [|fuel] L; [lia|]. cbn [unify]. rewrite H1, NL by lia. apply H2. lia. }
  destruct t1 as [d m nm l v|l r|l|c].
  4: { destruct (nth_error st c) as [v|] eqn:Hc; [|inversion R1; congruence].
    destruct v as [id|t|g].
    - eapply settles_unify_bind; try eassumption; [exact I|]. intros id' [= <-] NO d Hd X. destruct t2 as [| | |c2]; try (eapply around_reaches; try eassumption; reflexivity).
      destruct X as (x & [<-|[]] & X). destruct (HL d Hd) as [y Hy]. inversion X as [|? ? ? z Hz _ _]; subst; cbn in NL; [rewrite Hy in NL|rewrite Hz in NL]; discriminate.
    - assert (Rt : resolves st t u1) by (eapply resolves_link_inv; eassumption).
      inversion K1 as [? v Hv V|? t' k Ht' Kt| | |]; subst; [assert (v = Link t) by congruence; subst v; contradiction|]. assert (t' = t) by congruence. subst t'.
      destruct (IHn (k + k2) ltac:(lia) B st t t2 u1 u2 k k2 HU HZ (le_n _) D Rt R2 HB Kt K2) as (n2 & o2 & Ne2 & H2).
      pose proof (unify_spec n2 B st t t2 u1 u2 D Rt R2 HB) as X. rewrite H2 in X by lia.
      destruct o2 as [st'|e st'| |]; [|exists (S (n1 + n2)); eexists; split; [|intros [|fuel] L; [lia|]; cbn [unify]; rewrite H1, NL, Hc, H2 by lia; reflexivity]; discriminate|contradiction|congruence].
      destruct X as (a & A & _). destruct (steps_exist _ _ _ (after_resolves _ _ _ A _ _ Rt)) as [k' K'].
      destruct (settles_collapse st' c _ _ K') as (n3 & o3 & Ne3 & H3).
      exists (S (n1 + n2 + n3)). eexists. split; [|intros [|fuel] L; [lia|]; cbn [unify]; rewrite H1, NL, Hc, H2, H3 by lia; reflexivity].
      destruct (mem c B); [discriminate|]. destruct o3; congruence.
    - eapply settles_unify_bind; try eassumption; [exact I|]. intros id' [=]. }
  all: destruct t2 as [d2 m2 nm2 l2 v2|l2 r2|l2|c2].
  4, 8, 12: destruct (nth_error st c2) as [v2|] eqn:H2; [|inversion R2; congruence];
      match goal with |- settles _ (fun fuel => unify fuel ?B ?st ?t1 (Var ?c2)) =>
        assert (X : settles OutOfFuel (fun fuel => unify fuel B st (Var c2) t1));
          [|destruct X as (n2 & o2 & Ne2 & X2); exists (S (n1 + n2)), (map_err flip_unify_error o2); split;
            [destruct o2; try discriminate; congruence|intros [|fuel] L; [lia|]; cbn [unify]; rewrite H1, NL by lia; cbn [is_var]; rewrite X2 by lia; reflexivity]]
      end;
      (eapply settles_unify_bind; try eassumption; try reflexivity; [cbn in NL; rewrite H2 in NL; destruct v2; [exact I|discriminate|exact I]|]);
      intros id -> NO d' Hd' X; apply NO; destruct (HB d' Hd') as (t & w & Ht & Rw & S);
      destruct (resolves_reaches _ _ _ _ R1 X) as (w' & Rw' & S' & _); rewrite (resolves_same _ _ _ Rw _ Rw') in S';
      rewrite (resolves_unbound_inv _ _ _ _ H2 R2) in S; eapply sub_trans; eassumption.
  all: try (exists (S n1); eexists; split; [|intros [|fuel] L; [lia|]; cbn [unify]; rewrite H1, NL by lia; cbn [is_var]; reflexivity]; discriminate).
  - inversion R1 as [| | |? ? ? ? ? us Rl| |]; subst; inversion R2 as [| | |? ? ? ? ? us2 Rl2| |]; subst. cbn [size] in HZ.
    destruct (settles_each_pair B (fun _ _ _ e => match e with CouldNotUnify _ _ s => CouldNotUnify (Named d m nm l v) (Named d2 m2 nm2 l2 v2) s | e => e end) U Z Rec l l2 0 st us us2 D Rl Rl2) as (n2 & o2 & Ne2 & H2).
    + intros u Hu. eapply around_sub; [exact HB|]. eapply sub_named; [exact Hu|apply sub_here].
    + right. split; [exact HU|]. intros w w' Hw Hw'. pose proof (size_in _ _ Hw). pose proof (size_in _ _ Hw'). lia.
    + destruct (text_eqb m m2 && text_eqb nm nm2 && Nat.eqb (length l) (length l2)) eqn:Eq.
      * exists (S (n1 + n2)), o2. split; [exact Ne2|]. intros [|fuel] L; [lia|]. cbn [unify]. rewrite H1, NL by lia. cbn [is_var]. rewrite Eq. apply H2. lia.
      * exists (S n1). eexists. split; [|intros [|fuel] L; [lia|]; cbn [unify]; rewrite H1, NL by lia; cbn [is_var]; rewrite Eq; reflexivity]. discriminate.
  - inversion R1 as [| | | |? ? us w1 Rl Rr|]; subst; inversion R2 as [| | | |? ? us2 w2 Rl2 Rr2|]; subst. cbn [size] in HZ.
    destruct (Nat.eqb (length l) (length l2)) eqn:Eq.
    2: { exists (S n1). eexists. split; [|intros [|fuel] L; [lia|]; cbn [unify]; rewrite H1, NL by lia; cbn [is_var]; rewrite Eq; reflexivity]. discriminate. }
    set (F := fun i a a' (_ : unify_error) => CouldNotUnify (Fn l r) (Fn l2 r2) (Some (Argument a a' i))).
    assert (HBl : forall u, In u us2 -> around st B u) by (intros u Hu; eapply around_sub; [exact HB|]; eapply sub_fn; [exact Hu|apply sub_here]).
    destruct (settles_each_pair B F U Z Rec l l2 0 st us us2 D Rl Rl2 HBl) as (n2 & o2 & Ne2 & H2).
    { right. split; [exact HU|]. intros w w' Hw Hw'. pose proof (size_in _ _ Hw). pose proof (size_in _ _ Hw'). lia. }
    assert (X : unified_list st us us2 (fun _ => True) (each_pair (fun i st a a' => map_err (F i a a') (unify n2 B st a a')) 0 st l l2)).
    { apply (each_pair_spec B (fun _ => True) (unify n2 B)); try assumption; [intros; exact I|intros; apply unify_spec; assumption|]. apply Nat.eqb_eq. exact Eq. }
    rewrite H2 in X by lia.
    assert (H2' : forall fuel, n2 <= fuel -> each_pair (fun i st a a' => map_err (fun _ => CouldNotUnify (Fn l r) (Fn l2 r2) (Some (Argument a a' i))) (unify fuel B st a a')) 0 st l l2 = o2) by exact H2.
    destruct o2 as [st1|e st1| |]; [|exists (S (n1 + n2)); eexists; split; [|intros [|fuel] L; [lia|]; cbn [unify]; rewrite H1, NL by lia; cbn [is_var]; rewrite Eq, H2' by lia; reflexivity]; discriminate|contradiction|congruence].
    destruct X as (a & A & _).
    assert (X : settles OutOfFuel (fun fuel => unify fuel B st1 r r2)).
    { eapply Rec; [eapply after_distinct; eassumption|apply (after_resolves _ _ _ A); exact Rr|apply (after_resolves _ _ _ A); exact Rr2| |].
      - eapply around_after; [exact A|]. eapply around_sub; [exact HB|]. apply sub_return. apply sub_here.
      - destruct (after_count _ _ _ A) as [C|[C C']]; [left; lia|right]. split; [lia|]. rewrite !apply_unchanged by (intros; apply C'). lia. }
    destruct X as (n3 & o3 & Ne3 & H3).
    exists (S (n1 + n2 + n3)). eexists. split; [|intros [|fuel] L; [lia|]; cbn [unify]; rewrite H1, NL by lia; cbn [is_var]; rewrite Eq, H2', H3 by lia; reflexivity].
    destruct o3; try discriminate; congruence.
  - inversion R1 as [| | | | |? us Rl]; subst; inversion R2 as [| | | | |? us2 Rl2]; subst. cbn [size] in HZ.
    destruct (settles_each_pair B (fun _ _ _ e => match e with CouldNotUnify _ _ s => CouldNotUnify (Tuple l) (Tuple l2) s | e => e end) U Z Rec l l2 0 st us us2 D Rl Rl2) as (n2 & o2 & Ne2 & H2).
    + intros u Hu. eapply around_sub; [exact HB|]. eapply sub_tuple; [exact Hu|apply sub_here].
    + right. split; [exact HU|]. intros w w' Hw Hw'. pose proof (size_in _ _ Hw). pose proof (size_in _ _ Hw'). lia.
    + destruct (Nat.eqb (length l) (length l2)) eqn:Eq.
      * exists (S (n1 + n2)), o2. split; [exact Ne2|]. intros [|fuel] L; [lia|]. cbn [unify]. rewrite H1, NL by lia. cbn [is_var]. rewrite Eq. apply H2. lia.
      * exists (S n1). eexists. split; [|intros [|fuel] L; [lia|]; cbn [unify]; rewrite H1, NL by lia; cbn [is_var]; rewrite Eq; reflexivity]. discriminate.
Qed.
Lemma after_finite st st' a : after st st' a -> finite st -> finite st'.
Proof. intros A F c L. rewrite (after_length _ _ _ A) in L. destruct (F c L) as [u R]. exists (apply a u). apply (after_resolves _ _ _ A). exact R. Qed.
Lemma around_nil st u : around st [] u.
Proof. intros d []. Qed.
