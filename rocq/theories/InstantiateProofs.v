From Coq Require Import String ZArith NArith Arith Bool List Lia ZifyBool ZifyNat ZifyN.
From Verif Require Import Text TextProofs Unify UnifySpec UnifyProofs Instantiate InstantiateSpec.
Import ListNotations.
Local Open Scope nat_scope.

Lemma newcomers_same rigid l : forall k k', (forall i, existsb (N.eqb i) k = existsb (N.eqb i) k') -> newcomers rigid k l = newcomers rigid k' l.
Proof.
  induction l as [|i l IH]; intros k k' E; [reflexivity|]. cbn. rewrite E. destruct (rigid i || _); [apply IH; exact E|]. f_equal. apply IH. intros j. cbn. rewrite E. reflexivity.
Qed.
Lemma newcomers_app rigid l1 l2 : forall k, newcomers rigid k (l1 ++ l2) = newcomers rigid k l1 ++ newcomers rigid (rev (newcomers rigid k l1) ++ k) l2.
Proof.
  induction l1 as [|i l1 IH]; intros k; [reflexivity|]. cbn. destruct (rigid i || _); [apply IH|]. rewrite IH. cbn. rewrite <- app_assoc. reflexivity.
Qed.
Lemma newcomers_in rigid l : forall k i, In i (newcomers rigid k l) <-> In i l /\ rigid i = false /\ ~ In i k.
Proof.
  induction l as [|j l IH]; intros k i; cbn; [tauto|]. destruct (rigid j) eqn:R; cbn.
  - rewrite IH. split; [tauto|]. intros [[<-|H] H']; [destruct H'; congruence|tauto].
  - destruct (existsb (N.eqb j) k) eqn:E.
    + rewrite IH. apply existsb_exists in E. destruct E as (x & Hx & Ex). apply N.eqb_eq in Ex. subst x. split; [tauto|]. intros [[<-|H] H']; tauto.
    + cbn. rewrite IH. assert (~ In j k) by (intros H; assert (existsb (N.eqb j) k = true) by (apply existsb_exists; exists j; split; [exact H|apply N.eqb_refl]); congruence).
      cbn. split; [intros [<-|(? & ? & ?)]; tauto|]. intros ([<-|Hl] & Ri & Ni); [left; reflexivity|]. destruct (N.eq_dec j i) as [->|Ne]; [left; reflexivity|right]. tauto.
Qed.
Lemma newcomers_nodup rigid l : forall k, NoDup (newcomers rigid k l).
Proof.
  induction l as [|j l IH]; intros k; cbn; [constructor|]. destruct (rigid j || _); [apply IH|]. constructor; [|apply IH]. rewrite newcomers_in. cbn. tauto.
Qed.

(** Giving variables. *)
Lemma give_keys l : forall s, map fst (snd (fold_left give l s)) = rev l ++ map fst (snd s).
Proof. induction l as [|i l IH]; intros [e m]; [reflexivity|]. cbn [fold_left]. rewrite IH. cbn. rewrite <- app_assoc. reflexivity. Qed.
Fixpoint numbers (n : N) (k : nat) : list N := match k with O => [] | S k => n :: numbers (n + 1)%N k end.
Lemma give_all l : forall e m, fold_left give l (e, m) =
  (Env (variables e ++ map Unbound (numbers (ids e) (length l))) (ids e + N.of_nat (length l))%N
     (deferred_type_variable_aliases e ++ combine l (map Var (seq (length (variables e)) (length l)))),
   rev (combine l (map Var (seq (length (variables e)) (length l)))) ++ m).
Proof.
  induction l as [|i l IH]; intros e m; cbn [fold_left].
  - cbn. rewrite !app_nil_r. destruct e. cbn. rewrite N.add_0_r. reflexivity.
  - unfold give at 2. rewrite IH. cbn [variables ids deferred_type_variable_aliases]. rewrite app_length. cbn [length map seq combine rev numbers].
    rewrite <- !app_assoc. cbn [app]. replace (length (variables e) + 1) with (S (length (variables e))) by lia. f_equal. f_equal. lia.
Qed.
Lemma lookup_app id m m' : lookup id (m ++ m') = match lookup id m with Some t => Some t | None => lookup id m' end.
Proof. induction m as [|[i t] m IH]; cbn; [reflexivity|]. destruct (N.eqb i id); [reflexivity|exact IH]. Qed.
Lemma lookup_none id m : lookup id m = None <-> ~ In id (map fst m).
Proof.
  induction m as [|[i t] m IH]; cbn; [tauto|]. destruct (N.eqb_spec i id) as [->|Ne]; [split; [discriminate|tauto]|]. rewrite IH. tauto.
Qed.
Lemma lookup_existsb id m : existsb (N.eqb id) (map fst m) = match lookup id m with Some _ => true | None => false end.
Proof. induction m as [|[i t] m IH]; cbn; [reflexivity|]. rewrite N.eqb_sym. destruct (N.eqb i id); [reflexivity|exact IH]. Qed.
Lemma lookup_give l : forall s i, (lookup i (snd s) <> None \/ ~ In i l) -> lookup i (snd (fold_left give l s)) = lookup i (snd s) \/ In i l.
Proof.
  induction l as [|j l IH]; intros [e m] i H; [left; reflexivity|]. cbn [fold_left In].
  destruct (N.eq_dec j i) as [->|Ne]; [right; left; reflexivity|].
  destruct (IH (give (e, m) j) i) as [X|X]; [cbn; destruct (N.eqb_spec j i); [contradiction|]; cbn in H; tauto| |right; right; exact X].
  left. rewrite X. cbn. destruct (N.eqb_spec j i); [contradiction|reflexivity].
Qed.
(** Entries stay when only new keys come. *)
Lemma lookup_given l : forall s i t, lookup i (snd s) = Some t -> ~ In i l -> lookup i (snd (fold_left give l s)) = Some t.
Proof.
  intros s i t H N. destruct (lookup_give l s i) as [E|E]; [right; exact N| |contradiction]. congruence.
Qed.
Lemma lookup_not_given l : forall s i, lookup i (snd s) = None -> ~ In i l -> lookup i (snd (fold_left give l s)) = None.
Proof.
  intros s i H N. destruct (lookup_give l s i) as [E|E]; [right; exact N| |contradiction]. congruence.
Qed.
Lemma give_store l : forall s, exists vs, variables (fst (fold_left give l s)) = variables (fst s) ++ vs.
Proof.
  induction l as [|i l IH]; intros [e m]; [exists []; rewrite app_nil_r; reflexivity|]. cbn [fold_left]. destruct (IH (give (e, m) i)) as [vs E]. rewrite E. cbn. rewrite <- app_assoc. eexists. reflexivity.
Qed.

Lemma resolves_more st vs t u : resolves st t u -> resolves (st ++ vs) t u.
Proof.
  assert (X : forall c v, nth_error st c = Some v -> nth_error (st ++ vs) c = Some v).
  { intros c v H. rewrite nth_error_app1; [exact H|]. apply nth_error_Some. congruence. }
  intros R. induction R as [c id H|c id H|c t u H R IH|d m n l v us R IH|l r us u R IH R' IH'|l us R IH] using resolves_ind'.
  - constructor. auto.
  - constructor. auto.
  - econstructor; [|exact IH]. auto.
  - constructor. exact IH.
  - constructor; assumption.
  - constructor. exact IH.
Qed.
Lemma copy_ind' st m (P : type -> type -> Prop) :
  (forall c t t', nth_error st c = Some (Link t) -> copy st m t t' -> P t t' -> P (Var c) t') ->
  (forall c i, nth_error st c = Some (Unbound i) -> P (Var c) (Var c)) ->
  (forall c i t, nth_error st c = Some (Generic i) -> m i = Some t -> P (Var c) t) ->
  (forall c i, nth_error st c = Some (Generic i) -> m i = None -> P (Var c) (Var c)) ->
  (forall d x n l l' v, Forall2 (copy st m) l l' -> Forall2 P l l' -> P (Named d x n l v) (Named d x n l' v)) ->
  (forall l l' r r', Forall2 (copy st m) l l' -> Forall2 P l l' -> copy st m r r' -> P r r' -> P (Fn l r) (Fn l' r')) ->
  (forall l l', Forall2 (copy st m) l l' -> Forall2 P l l' -> P (Tuple l) (Tuple l')) ->
  forall t t', copy st m t t' -> P t t'.
Proof.
  intros Hl Hu Hr Hk Hn Hf Ht. fix IH 3. intros t t' H.
  assert (L : forall l l', Forall2 (copy st m) l l' -> Forall2 P l l') by (induction 1; constructor; auto).
  destruct H; eauto.
Qed.
Lemma in_flat_generics u us i : In u us -> In i (generics u) -> In i (flat_map generics us).
Proof. intros H H'. apply in_flat_map. eauto. Qed.
Lemma Forall2_in {A B} (P : A -> B -> Prop) (Q : B -> Prop) l us : Forall2 P l us -> (forall u, In u us -> Q u) -> Forall2 (fun a b => P a b /\ Q b) l us.
Proof. induction 1 as [|a b l us H _ IH]; intros HQ; constructor; [split; [exact H|apply HQ; left; reflexivity]|]. apply IH. intros u Hu. apply HQ. right. exact Hu. Qed.
Lemma Forall2_chain {A B C} (P : A -> B -> Prop) (Q : A -> C -> Prop) (R : A -> C -> Prop) (K : B -> Prop) l us :
  Forall2 (fun a b => P a b /\ K b) l us -> (forall a b, In a l -> P a b -> K b -> forall c, Q a c -> R a c) -> forall l', Forall2 Q l l' -> Forall2 R l l'.
Proof.
  induction 1 as [|a b l us [H HK] _ IH]; intros X l' F; inversion F as [|? c ? l0 Hc Fl]; subst; constructor; [eapply X; try eassumption; left; reflexivity|].
  apply IH; [|exact Fl]. intros a' b' Ia. apply X. right. exact Ia.
Qed.
Lemma copy_weaken st vs m m' : forall t u, resolves st t u -> (forall i, In i (generics u) -> m i = m' i) -> forall t', copy (st ++ vs) m t t' -> copy st m' t t'.
Proof.
  assert (X : forall c v w, nth_error st c = Some v -> nth_error (st ++ vs) c = Some w -> v = w).
  { intros c v w H H'. rewrite nth_error_app1 in H' by (apply nth_error_Some; congruence). congruence. }
  assert (L : forall us l, Forall2 (fun t u => (forall i, In i (generics u) -> m i = m' i) -> forall t', copy (st ++ vs) m t t' -> copy st m' t t') l us ->
    (forall i, In i (flat_map generics us) -> m i = m' i) -> forall l', Forall2 (copy (st ++ vs) m) l l' -> Forall2 (copy st m') l l').
  { induction 1 as [|t u l us H _ IH]; intros E l' F; inversion F as [|? c ? l0 Hc Fl]; subst; constructor.
    - apply H; [|exact Hc]. intros i Hi. apply E. cbn. apply in_or_app. left. exact Hi.
    - apply IH; [|exact Fl]. intros i Hi. apply E. cbn. apply in_or_app. right. exact Hi. }
  intros t u R. induction R as [c id H|c id H|c t u H R IH|d x n l v us R IH|l r us u R IH R' IH'|l us R IH] using resolves_ind'; intros E t' C.
  - inversion C as [? ? ? H'|? ? H'|? ? ? H'|? ? H'| | |]; subst; pose proof (X _ _ _ H H') as Y; try discriminate. eapply copy_unbound. exact H.
  - inversion C as [? ? ? H'|? ? H'|? ? ? H' M|? ? H' M| | |]; subst; pose proof (X _ _ _ H H') as Y; try discriminate; injection Y as <-; rewrite E in M by (left; reflexivity).
    + eapply copy_replaced; eassumption.
    + eapply copy_kept; eassumption.
  - inversion C as [? ? ? H' C'|? ? H'|? ? ? H'|? ? H'| | |]; subst; pose proof (X _ _ _ H H') as Y; try discriminate. injection Y as <-. eapply copy_link; [exact H|]. apply IH; assumption.
  - inversion C; subst. constructor. eapply L; eassumption.
  - inversion C; subst. constructor; [eapply L; try eassumption|apply IH'; [|assumption]]; intros i Hi; apply E; cbn; apply in_or_app; tauto.
  - inversion C; subst. constructor. eapply L; eassumption.
Qed.

Section Instantiate.
Context (rigid : N -> bool).
Definition after_all (s : state) (l : list N) : state := fold_left give (newcomers rigid (map fst (snd s)) l) s.
Lemma after_all_app s l1 l2 : after_all s (l1 ++ l2) = after_all (after_all s l1) l2.
Proof. unfold after_all. rewrite newcomers_app, fold_left_app, give_keys. reflexivity. Qed.
Lemma after_all_store s l : exists vs, variables (fst (after_all s l)) = variables (fst s) ++ vs.
Proof. apply give_store. Qed.
Lemma after_all_lookup s l i : rigid i = true \/ lookup i (snd s) <> None -> lookup i (snd (after_all s l)) = lookup i (snd s).
Proof.
  intros H. unfold after_all. assert (N : ~ In i (newcomers rigid (map fst (snd s)) l)).
  { rewrite newcomers_in. intros (_ & R & K). destruct H as [H|H]; [congruence|]. apply H. apply lookup_none. exact K. }
  destruct (lookup i (snd s)) as [t|] eqn:E; [apply lookup_given; assumption|apply lookup_not_given; assumption].
Qed.
Lemma after_all_known s l i : In i l -> rigid i = true \/ lookup i (snd (after_all s l)) <> None.
Proof.
  intros H. destruct (rigid i) eqn:R; [left; reflexivity|right]. rewrite lookup_none. unfold after_all. rewrite give_keys. intros X. apply X. apply in_or_app.
  destruct (in_dec N.eq_dec i (map fst (snd s))) as [K|K]; [right; exact K|left]. rewrite <- in_rev. apply newcomers_in. auto.
Qed.
Definition instantiated (s : state) (t : type) (u : term) (r : answer (type * state)) : Prop :=
  match r with
  | Answer (t', s') => s' = after_all s (generics u) /\ copy (variables (fst s)) (fun i => lookup i (snd s')) t t'
  | Panics => False
  | NoFuel => True
  end.
Lemma copy_later s l t u t' : resolves (variables (fst s)) t u -> (forall i, In i (generics u) -> rigid i = true \/ lookup i (snd s) <> None) ->
  forall st, (exists vs, variables (fst s) = st ++ vs) -> resolves st t u -> copy st (fun i => lookup i (snd s)) t t' -> copy st (fun i => lookup i (snd (after_all s l))) t t'.
Proof.
  intros R K st [vs E] R' C. eapply (copy_weaken st []); [exact R'| |rewrite app_nil_r; exact C]. intros i Hi. symmetry. apply after_all_lookup. apply K. exact Hi.
Qed.
Lemma collect_spec (f : state -> type -> answer (type * state)) : (forall s t u, resolves (variables (fst s)) t u -> instantiated s t u (f s t)) ->
  forall l s us, Forall2 (resolves (variables (fst s))) l us ->
  match collect f s l with
  | Answer (l', s') => s' = after_all s (flat_map generics us) /\ Forall2 (copy (variables (fst s)) (fun i => lookup i (snd s'))) l l'
  | Panics => False
  | NoFuel => True
  end.
Proof.
  intros H. induction l as [|t l IH]; intros s us R; inversion R as [|? u ? us0 Rt Rl]; subst; cbn [collect].
  - split; [reflexivity|constructor].
  - pose proof (H s t u Rt) as X. destruct (f s t) as [[t' s1]| |]; try exact X. destruct X as [E1 C1].
    destruct (after_all_store s (generics u)) as [vs Ev]. rewrite <- E1 in Ev.
    assert (Rl1 : Forall2 (resolves (variables (fst s1))) l us0) by (rewrite Ev; eapply Forall2_imp; [|exact Rl]; intros x y; apply resolves_more).
    specialize (IH s1 us0 Rl1). destruct (collect f s1 l) as [[l' s2]| |]; try exact IH. destruct IH as [E2 C2]. cbn [flat_map]. rewrite after_all_app, <- E1.
    split; [exact E2|]. constructor.
    + rewrite E2. eapply copy_later; [rewrite Ev; apply resolves_more; exact Rt|rewrite E1; apply after_all_known|exists vs; exact Ev|exact Rt|exact C1].
    + clear - Rl C2 Ev. rewrite Ev in C2. revert us0 Rl. induction C2 as [|x y l l' Hxy _ IH]; intros us0 Rl; inversion Rl; subst; constructor; [|eapply IH; eassumption].
      eapply copy_weaken; [eassumption| |exact Hxy]. reflexivity.
Qed.
Lemma instantiate_spec fuel : forall s t u, resolves (variables (fst s)) t u -> instantiated s t u (instantiate fuel rigid s t).
Proof.
  induction fuel as [|fuel IH]; intros s t u R; [exact I|]. cbn [instantiate].
  destruct t as [d x n l v|l r|l|c].
  - inversion R as [| | |? ? ? ? ? us Rl| |]; subst. pose proof (collect_spec _ IH l s us Rl) as X. destruct (collect _ s l) as [[l' s1]| |]; try exact X. destruct X as [E C].
    split; [exact E|]. constructor. exact C.
  - inversion R as [| | | |? ? us w Rl Rr|]; subst. pose proof (collect_spec _ IH l s us Rl) as X. destruct (collect _ s l) as [[l' s1]| |]; try exact X. destruct X as [E C].
    destruct (after_all_store s (flat_map generics us)) as [vs Ev]. rewrite <- E in Ev.
    assert (Rr1 : resolves (variables (fst s1)) r w) by (rewrite Ev; apply resolves_more; exact Rr).
    specialize (IH s1 r w Rr1). destruct (instantiate fuel rigid s1 r) as [[r' s2]| |]; try exact IH. destruct IH as [E2 C2]. unfold instantiated. cbn [generics].
    split; [rewrite after_all_app, <- E; exact E2|]. constructor.
    + rewrite E2. assert (K : forall i, In i (flat_map generics us) -> rigid i = true \/ lookup i (snd s1) <> None) by (rewrite E; apply after_all_known).
      clear - Rl C Ev K. revert us Rl K. induction C as [|x y l l' Hxy _ IH]; intros us Rl K; inversion Rl as [|? u ? us0 Ru Rl0]; subst; constructor.
      * eapply copy_later; [rewrite Ev; apply resolves_more; exact Ru| |exists vs; exact Ev|exact Ru|exact Hxy]. intros i Hi. apply K. cbn. apply in_or_app. left. exact Hi.
      * eapply IH; [exact Rl0|]. intros i Hi. apply K. cbn. apply in_or_app. right. exact Hi.
    + eapply copy_weaken; [exact Rr| |rewrite Ev in C2; exact C2]. reflexivity.
  - inversion R as [| | | | |? us Rl]; subst. pose proof (collect_spec _ IH l s us Rl) as X. destruct (collect _ s l) as [[l' s1]| |]; try exact X. destruct X as [E C].
    split; [exact E|]. constructor. exact C.
  - inversion R as [? i H|? i H|? t ? H Rt| | |]; subst; rewrite H.
    + split; [reflexivity|]. eapply copy_unbound. exact H.
    + destruct s as [e m]. cbn [fst snd] in *. destruct (lookup i m) as [t|] eqn:E.
      * split; [unfold after_all; cbn; rewrite lookup_existsb, E, orb_true_r; reflexivity|]. eapply copy_replaced; [exact H|exact E].
      * destruct (rigid i) eqn:Ri.
        -- split; [unfold after_all; cbn; rewrite Ri; reflexivity|]. eapply copy_kept; [exact H|exact E].
        -- cbn [new_unbound_var next_uid allocate variables ids deferred_type_variable_aliases]. split; [unfold after_all; cbn; rewrite lookup_existsb, E, Ri; reflexivity|].
           eapply copy_replaced; [exact H|]. cbn. rewrite N.eqb_refl. reflexivity.
    + specialize (IH s t u Rt). destruct (instantiate fuel rigid s t) as [[t' s']| |]; try exact IH. destruct IH as [E C]. split; [exact E|]. eapply copy_link; [exact H|exact C].
Qed.
(** Fuel. *)
Lemma collect_settles {S} (f : nat -> S -> type -> answer (type * S)) (I : S -> Prop) l : (forall s t, In t l -> I s -> settles NoFuel (fun fuel => f fuel s t)) ->
  (forall fuel s t t' s', In t l -> I s -> f fuel s t = Answer (t', s') -> I s') -> forall s, I s -> settles NoFuel (fun fuel => collect (f fuel) s l).
Proof.
  induction l as [|t l IH]; intros H HI s Is; [settled|].
  destruct (H s t (or_introl eq_refl) Is) as (n & o & Ne & Hn). destruct o as [[t' s1]| |]; [| |congruence].
  2: { exists n. eexists. split; [|intros fuel L; cbn [collect]; rewrite Hn by exact L; reflexivity]. discriminate. }
  assert (I1 : I s1) by (eapply HI; [left; reflexivity|exact Is|apply Hn; apply le_n]).
  destruct (IH (fun s t It => H s t (or_intror It)) (fun fuel s t t' s' It => HI fuel s t t' s' (or_intror It)) s1 I1) as (n2 & o2 & Ne2 & H2).
  exists (n + n2). eexists. split; [|intros fuel L; cbn [collect]; rewrite Hn, H2 by lia; reflexivity]. destruct o2 as [[? ?]| |]; congruence || discriminate.
Qed.
End Instantiate.
Lemma collect_invariant {S} (f : S -> type -> answer (type * S)) (I : S -> S -> Prop) : (forall s, I s s) -> (forall a b c, I a b -> I b c -> I a c) ->
  (forall s t t' s', f s t = Answer (t', s') -> I s s') -> forall l s l' s', collect f s l = Answer (l', s') -> I s s'.
Proof.
  intros Refl Trans H. induction l as [|t l IH]; intros s l' s' E; cbn [collect] in E; [injection E as _ <-; apply Refl|].
  destruct (f s t) as [[t1 s1]| |] eqn:E1; try discriminate. destruct (collect f s1 l) as [[l1 s2]| |] eqn:E2; try discriminate. injection E as _ <-.
  eapply Trans; [eapply H; exact E1|eapply IH; exact E2].
Qed.
Definition longer (a b : store) : Prop := exists vs, b = a ++ vs.
Lemma longer_refl a : longer a a.
Proof. exists []. rewrite app_nil_r. reflexivity. Qed.
Lemma longer_trans a b c : longer a b -> longer b c -> longer a c.
Proof. intros [x ->] [y ->]. exists (x ++ y). rewrite app_assoc. reflexivity. Qed.
Lemma instantiate_longer rigid fuel : forall s t t' s', instantiate fuel rigid s t = Answer (t', s') -> longer (variables (fst s)) (variables (fst s')).
Proof.
  induction fuel as [|fuel IH]; intros s t t' s' E; [discriminate|]. cbn [instantiate] in E.
  assert (L : forall l s l' s', collect (instantiate fuel rigid) s l = Answer (l', s') -> longer (variables (fst s)) (variables (fst s'))).
  { apply (collect_invariant (instantiate fuel rigid) (fun a b => longer (variables (fst a)) (variables (fst b)))); [intros; apply longer_refl|intros a b c; apply longer_trans|exact IH]. }
  destruct t as [d x n l v|l r|l|c].
  - destruct (collect _ s l) as [[l1 s1]| |] eqn:E1; try discriminate. injection E as _ <-. eapply L; exact E1.
  - destruct (collect _ s l) as [[l1 s1]| |] eqn:E1; try discriminate. destruct (instantiate fuel rigid s1 r) as [[r1 s2]| |] eqn:E2; try discriminate. injection E as _ <-.
    eapply longer_trans; [eapply L; exact E1|eapply IH; exact E2].
  - destruct (collect _ s l) as [[l1 s1]| |] eqn:E1; try discriminate. injection E as _ <-. eapply L; exact E1.
  - destruct (nth_error _ c) as [[i|t|i]|]; try discriminate; [injection E as _ <-; apply longer_refl|eapply IH; exact E|].
    destruct (lookup i (snd s)); [injection E as _ <-; apply longer_refl|]. destruct (rigid i); [injection E as _ <-; apply longer_refl|].
    destruct s as [e m]. cbn in E. injection E as _ <-. cbn. eexists. reflexivity.
Qed.
Lemma generalise_longer fuel : forall e t t' e', generalise fuel e t = Answer (t', e') -> longer (variables e) (variables e').
Proof.
  induction fuel as [|fuel IH]; intros s t t' s' E; [discriminate|]. cbn [generalise] in E.
  assert (L : forall l s l' s', collect (generalise fuel) s l = Answer (l', s') -> longer (variables s) (variables s')).
  { apply (collect_invariant (generalise fuel) (fun a b => longer (variables a) (variables b))); [intros; apply longer_refl|intros a b c; apply longer_trans|exact IH]. }
  destruct t as [d x n l v|l r|l|c].
  - destruct (collect _ s l) as [[l1 s1]| |] eqn:E1; try discriminate. injection E as _ <-. eapply L; exact E1.
  - destruct (collect _ s l) as [[l1 s1]| |] eqn:E1; try discriminate. destruct (generalise fuel s1 r) as [[r1 s2]| |] eqn:E2; try discriminate. injection E as _ <-.
    eapply longer_trans; [eapply L; exact E1|eapply IH; exact E2].
  - destruct (collect _ s l) as [[l1 s1]| |] eqn:E1; try discriminate. injection E as _ <-. eapply L; exact E1.
  - destruct (nth_error _ c) as [[i|t|i]|]; try discriminate; [injection E as _ <-; eexists; reflexivity|eapply IH; exact E|injection E as _ <-; apply longer_refl].
Qed.
Lemma longer_get a b c v : longer a b -> nth_error a c = Some v -> nth_error b c = Some v.
Proof. intros [vs ->] H. rewrite nth_error_app1; [exact H|]. apply nth_error_Some. congruence. Qed.
Lemma instantiate_settles rigid st0 : forall n t, steps st0 t n -> forall s, longer st0 (variables (fst s)) -> settles NoFuel (fun fuel => instantiate fuel rigid s t).
Proof.
  induction n as [n IH] using lt_wf_ind. intros t H s Ls.
  assert (HL : forall l k s, k < n -> steps_list st0 l k -> longer st0 (variables (fst s)) -> settles NoFuel (fun fuel => collect (instantiate fuel rigid) s l)).
  { intros l k s0 L Hl L0. apply (collect_settles (fun fuel => instantiate fuel rigid) (fun s => longer st0 (variables (fst s)))); [| |exact L0].
    - intros s1 t1 It L1. destruct (steps_list_in _ _ _ Hl t1 It) as (m & Hm & Lm). eapply IH; [|exact Hm|exact L1]. lia.
    - intros fuel s1 t1 t' s' _ L1 E. eapply longer_trans; [exact L1|eapply instantiate_longer; exact E]. }
  assert (X : forall c v, nth_error st0 c = Some v -> nth_error (variables (fst s)) c = Some v) by (intros c v; apply longer_get; exact Ls).
  inversion H as [c v Hc V|c t' k Hc Ht|d m nm l v k Hl|l r k j Hl Hr|l k Hl]; subst.
  - apply X in Hc. eapply settles_more; [intros fuel; cbn [instantiate]; rewrite Hc; reflexivity|]. destruct v; try contradiction; [settled|].
    destruct (lookup id (snd s)); [settled|]. destruct (rigid id); [settled|]. destruct s. settled.
  - apply X in Hc. eapply settles_more; [intros fuel; cbn [instantiate]; rewrite Hc; reflexivity|]. eapply IH; [|exact Ht|exact Ls]. lia.
  - eapply settles_more; [intros fuel; cbn [instantiate]; reflexivity|]. destruct (HL l k s ltac:(lia) Hl Ls) as (n1 & o & Ne & Hn).
    exists n1. eexists. split; [|intros fuel L; rewrite Hn by exact L; reflexivity]. destruct o as [[? ?]| |]; congruence || discriminate.
  - eapply settles_more; [intros fuel; cbn [instantiate]; reflexivity|]. destruct (HL l k s ltac:(lia) Hl Ls) as (n1 & o & Ne & Hn).
    destruct o as [[l' s1]| |]; [| |congruence]; [|exists n1; eexists; split; [|intros fuel L; rewrite Hn by exact L; reflexivity]; discriminate].
    assert (L1 : longer st0 (variables (fst s1))).
    { eapply longer_trans; [exact Ls|]. eapply (collect_invariant (instantiate n1 rigid) (fun a b => longer (variables (fst a)) (variables (fst b)))); [intros; apply longer_refl|intros a b c; apply longer_trans|apply instantiate_longer|apply Hn; apply le_n]. }
    destruct (IH j ltac:(lia) r Hr s1 L1) as (n2 & o2 & Ne2 & H2).
    exists (n1 + n2). eexists. split; [|intros fuel L; rewrite Hn, H2 by lia; reflexivity]. destruct o2 as [[? ?]| |]; congruence || discriminate.
  - eapply settles_more; [intros fuel; cbn [instantiate]; reflexivity|]. destruct (HL l k s ltac:(lia) Hl Ls) as (n1 & o & Ne & Hn).
    exists n1. eexists. split; [|intros fuel L; rewrite Hn by exact L; reflexivity]. destruct o as [[? ?]| |]; congruence || discriminate.
Qed.
Lemma generalise_settles st0 : forall n t, steps st0 t n -> forall e, longer st0 (variables e) -> settles NoFuel (fun fuel => generalise fuel e t).
Proof.
  induction n as [n IH] using lt_wf_ind. intros t H s Ls.
  assert (HL : forall l k s, k < n -> steps_list st0 l k -> longer st0 (variables s) -> settles NoFuel (fun fuel => collect (generalise fuel) s l)).
  { intros l k s0 L Hl L0. apply (collect_settles (fun fuel => generalise fuel) (fun s => longer st0 (variables s))); [| |exact L0].
    - intros s1 t1 It L1. destruct (steps_list_in _ _ _ Hl t1 It) as (m & Hm & Lm). eapply IH; [|exact Hm|exact L1]. lia.
    - intros fuel s1 t1 t' s' _ L1 E. eapply longer_trans; [exact L1|eapply generalise_longer; exact E]. }
  assert (X : forall c v, nth_error st0 c = Some v -> nth_error (variables s) c = Some v) by (intros c v; apply longer_get; exact Ls).
  inversion H as [c v Hc V|c t' k Hc Ht|d m nm l v k Hl|l r k j Hl Hr|l k Hl]; subst.
  - apply X in Hc. eapply settles_more; [intros fuel; cbn [generalise]; rewrite Hc; reflexivity|]. destruct v; try contradiction; settled.
  - apply X in Hc. eapply settles_more; [intros fuel; cbn [generalise]; rewrite Hc; reflexivity|]. eapply IH; [|exact Ht|exact Ls]. lia.
  - eapply settles_more; [intros fuel; cbn [generalise]; reflexivity|]. destruct (HL l k s ltac:(lia) Hl Ls) as (n1 & o & Ne & Hn).
    exists n1. eexists. split; [|intros fuel L; rewrite Hn by exact L; reflexivity]. destruct o as [[? ?]| |]; congruence || discriminate.
  - eapply settles_more; [intros fuel; cbn [generalise]; reflexivity|]. destruct (HL l k s ltac:(lia) Hl Ls) as (n1 & o & Ne & Hn).
    destruct o as [[l' s1]| |]; [| |congruence]; [|exists n1; eexists; split; [|intros fuel L; rewrite Hn by exact L; reflexivity]; discriminate].
    assert (L1 : longer st0 (variables s1)).
    { eapply longer_trans; [exact Ls|]. eapply (collect_invariant (generalise n1) (fun a b => longer (variables a) (variables b))); [intros; apply longer_refl|intros a b c; apply longer_trans|apply generalise_longer|apply Hn; apply le_n]. }
    destruct (IH j ltac:(lia) r Hr s1 L1) as (n2 & o2 & Ne2 & H2).
    exists (n1 + n2). eexists. split; [|intros fuel L; rewrite Hn, H2 by lia; reflexivity]. destruct o2 as [[? ?]| |]; congruence || discriminate.
  - eapply settles_more; [intros fuel; cbn [generalise]; reflexivity|]. destruct (HL l k s ltac:(lia) Hl Ls) as (n1 & o & Ne & Hn).
    exists n1. eexists. split; [|intros fuel L; rewrite Hn by exact L; reflexivity]. destruct o as [[? ?]| |]; congruence || discriminate.
Qed.

(** ** Generalisation *)
Lemma closes_ind' st st' (P : type -> type -> Prop) :
  (forall c t t', nth_error st c = Some (Link t) -> closes st st' t t' -> P t t' -> P (Var c) t') ->
  (forall c i c', nth_error st c = Some (Unbound i) -> nth_error st' c' = Some (Generic i) -> P (Var c) (Var c')) ->
  (forall c i, nth_error st c = Some (Generic i) -> nth_error st' c = Some (Generic i) -> P (Var c) (Var c)) ->
  (forall d x n l l' v, Forall2 (closes st st') l l' -> Forall2 P l l' -> P (Named d x n l v) (Named d x n l' None)) ->
  (forall l l' r r', Forall2 (closes st st') l l' -> Forall2 P l l' -> closes st st' r r' -> P r r' -> P (Fn l r) (Fn l' r')) ->
  (forall l l', Forall2 (closes st st') l l' -> Forall2 P l l' -> P (Tuple l) (Tuple l')) ->
  forall t t', closes st st' t t' -> P t t'.
Proof.
  intros Hl Hu Hr Hn Hf Ht. fix IH 3. intros t t' H.
  assert (L : forall l l', Forall2 (closes st st') l l' -> Forall2 P l l') by (induction 1; constructor; auto).
  destruct H; eauto.
Qed.
Lemma closes_more a b t t' : closes a b t t' -> forall b', longer b b' -> closes a b' t t'.
Proof.
  intros C b' L. induction C using closes_ind'; try (econstructor; eassumption).
  - eapply closes_unbound; [eassumption|]. eapply longer_get; eassumption.
  - eapply closes_generic; [eassumption|]. eapply longer_get; eassumption.
Qed.
Lemma closes_earlier a0 a b : longer a0 a -> forall t u, resolves a0 t u -> forall t', closes a b t t' -> closes a0 b t t'.
Proof.
  intros L. assert (X : forall c v w, nth_error a0 c = Some v -> nth_error a c = Some w -> v = w) by (intros c v w H H'; rewrite (longer_get _ _ _ _ L H) in H'; congruence).
  assert (HL : forall us l, Forall2 (fun t (u : term) => forall t', closes a b t t' -> closes a0 b t t') l us -> forall l', Forall2 (closes a b) l l' -> Forall2 (closes a0 b) l l').
  { induction 1 as [|t u l us H _ IH]; intros l' F; inversion F; subst; constructor; auto. }
  intros t u R. induction R as [c id H|c id H|c t u H R IH|d x n l v us R IH|l r us u R IH R' IH'|l us R IH] using resolves_ind'; intros t' C.
  - inversion C as [? ? ? H'|? ? ? H'|? ? H'| | |]; subst; pose proof (X _ _ _ H H') as Y; try discriminate. injection Y as <-. eapply closes_unbound; eassumption.
  - inversion C as [? ? ? H'|? ? ? H'|? ? H'| | |]; subst; pose proof (X _ _ _ H H') as Y; try discriminate. injection Y as <-. eapply closes_generic; eassumption.
  - inversion C as [? ? ? H' C'|? ? ? H'|? ? H'| | |]; subst; pose proof (X _ _ _ H H') as Y; try discriminate. injection Y as <-. eapply closes_link; [exact H|]. apply IH. exact C'.
  - inversion C; subst. constructor. eapply HL; eassumption.
  - inversion C; subst. constructor; [eapply HL; eassumption|auto].
  - inversion C; subst. constructor. eapply HL; eassumption.
Qed.
Definition add_generics (e : env) (l : list N) : env := Env (variables e ++ map Generic l) (ids e) (deferred_type_variable_aliases e).
Lemma add_generics_app e l l' : add_generics e (l ++ l') = add_generics (add_generics e l) l'.
Proof. unfold add_generics. cbn. rewrite map_app, app_assoc. reflexivity. Qed.
Lemma add_generics_nil e : add_generics e [] = e.
Proof. unfold add_generics. cbn. rewrite app_nil_r. destruct e. reflexivity. Qed.
Definition generalised (e : env) (t : type) (u : term) (r : answer (type * env)) : Prop :=
  match r with
  | Answer (t', e') => e' = add_generics e (unbounds u) /\ closes (variables e) (variables e') t t'
  | Panics => False
  | NoFuel => True
  end.
Lemma longer_add e l : longer (variables e) (variables (add_generics e l)).
Proof. eexists. reflexivity. Qed.
Lemma closes_list_earlier a0 a b : longer a0 a -> forall l us, Forall2 (resolves a0) l us -> forall l', Forall2 (closes a b) l l' -> Forall2 (closes a0 b) l l'.
Proof. intros L l us R. induction R as [|t u l us Rt Rl IH]; intros k F; inversion F; subst; constructor; [eapply closes_earlier; eassumption|auto]. Qed.
Lemma collect_generalise (f : env -> type -> answer (type * env)) : (forall e t u, resolves (variables e) t u -> generalised e t u (f e t)) ->
  forall l e us, Forall2 (resolves (variables e)) l us ->
  match collect f e l with
  | Answer (l', e') => e' = add_generics e (flat_map unbounds us) /\ Forall2 (closes (variables e) (variables e')) l l'
  | Panics => False
  | NoFuel => True
  end.
Proof.
  intros H. induction l as [|t l IH]; intros e us R; inversion R as [|? u ? us0 Rt Rl]; subst; cbn [collect].
  - split; [rewrite add_generics_nil; reflexivity|constructor].
  - pose proof (H e t u Rt) as X. destruct (f e t) as [[t' e1]| |]; try exact X. destruct X as [E1 C1].
    assert (L1 : longer (variables e) (variables e1)) by (rewrite E1; apply longer_add). destruct L1 as [vs Ev].
    assert (Rl1 : Forall2 (resolves (variables e1)) l us0) by (rewrite Ev; eapply Forall2_imp; [|exact Rl]; intros x y; apply resolves_more).
    specialize (IH e1 us0 Rl1). destruct (collect f e1 l) as [[l' e2]| |]; try exact IH. destruct IH as [E2 C2]. cbn [flat_map]. rewrite add_generics_app, <- E1. split; [exact E2|].
    constructor; [eapply closes_more; [exact C1|rewrite E2; apply longer_add]|eapply closes_list_earlier; [exists vs; exact Ev|exact Rl|exact C2]].
Qed.
Lemma generalise_spec' fuel : forall e t u, resolves (variables e) t u -> generalised e t u (generalise fuel e t).
Proof.
  induction fuel as [|fuel IH]; intros s t u R; [exact I|]. cbn [generalise].
  destruct t as [d x n l v|l r|l|c].
  - inversion R as [| | |? ? ? ? ? us Rl| |]; subst. pose proof (collect_generalise _ IH l s us Rl) as X. destruct (collect _ s l) as [[l' s1]| |]; try exact X. destruct X as [E C].
    split; [exact E|]. constructor. exact C.
  - inversion R as [| | | |? ? us w Rl Rr|]; subst. pose proof (collect_generalise _ IH l s us Rl) as X. destruct (collect _ s l) as [[l' s1]| |]; try exact X. destruct X as [E C].
    assert (L1 : longer (variables s) (variables s1)) by (rewrite E; apply longer_add). destruct L1 as [vs Ev].
    assert (Rr1 : resolves (variables s1) r w) by (rewrite Ev; apply resolves_more; exact Rr).
    specialize (IH s1 r w Rr1). destruct (generalise fuel s1 r) as [[r' s2]| |]; try exact IH. destruct IH as [E2 C2]. unfold generalised. cbn [unbounds].
    split; [rewrite add_generics_app, <- E; exact E2|]. constructor.
    + eapply Forall2_imp; [|exact C]. intros x y Cxy. eapply closes_more; [exact Cxy|rewrite E2; apply longer_add].
    + eapply closes_earlier; [exists vs; exact Ev|exact Rr|exact C2].
  - inversion R as [| | | | |? us Rl]; subst. pose proof (collect_generalise _ IH l s us Rl) as X. destruct (collect _ s l) as [[l' s1]| |]; try exact X. destruct X as [E C].
    split; [exact E|]. constructor. exact C.
  - inversion R as [? i H|? i H|? t ? H Rt| | |]; subst; rewrite H.
    + split; [reflexivity|]. eapply closes_unbound; [exact H|]. cbn. rewrite nth_error_app2, Nat.sub_diag by apply le_n. reflexivity.
    + split; [rewrite add_generics_nil; reflexivity|]. eapply closes_generic; exact H.
    + specialize (IH s t u Rt). destruct (generalise fuel s t) as [[t' s']| |]; try exact IH. destruct IH as [E C]. split; [exact E|]. eapply closes_link; [exact H|exact C].
Qed.
Lemma closes_resolves st st' t u : resolves st t u -> forall t', closes st st' t t' -> resolves st' t' (closed u).
Proof.
  assert (HL : forall us l, Forall2 (fun t u => forall t', closes st st' t t' -> resolves st' t' (closed u)) l us -> forall l', Forall2 (closes st st') l l' -> Forall2 (resolves st') l' (map closed us)).
  { induction 1 as [|t' u' l us H _ IH]; intros l' F; inversion F; subst; constructor; auto. }
  intros R. induction R as [c id H|c id H|c t u H R IH|d x n l v us R IH|l r us u R IH R' IH'|l us R IH] using resolves_ind'; intros t' C.
  - inversion C as [? ? ? H'|? ? ? H'|? ? H'| | |]; subst; rewrite H in H'; try discriminate. injection H' as <-. constructor. assumption.
  - inversion C as [? ? ? H'|? ? ? H'|? ? H'| | |]; subst; rewrite H in H'; try discriminate. injection H' as <-. constructor. assumption.
  - inversion C as [? ? ? H' C'|? ? ? H'|? ? H'| | |]; subst; rewrite H in H'; try discriminate. injection H' as <-. apply IH. exact C'.
  - inversion C; subst. cbn. constructor. eapply HL; eassumption.
  - inversion C; subst. cbn. constructor; [eapply HL; eassumption|auto].
  - inversion C; subst. cbn. constructor. eapply HL; eassumption.
Qed.

(** ** The numbers of the new variables *)
Fixpoint position (i : N) (l : list N) : option nat :=
  match l with
  | [] => None
  | j :: l => if N.eqb j i then Some 0 else option_map S (position i l)
  end.
Lemma position_in i l : position i l <> None <-> In i l.
Proof.
  induction l as [|j l IH]; cbn; [tauto|]. destruct (N.eqb_spec j i) as [->|Ne]; [split; [auto|discriminate]|]. rewrite <- IH. destruct (position i l); cbn; [split; [right; discriminate|discriminate]|]. tauto.
Qed.
Lemma position_nth i l k : position i l = Some k -> nth_error l k = Some i.
Proof.
  revert k. induction l as [|j l IH]; cbn; intros k E; [discriminate|]. destruct (N.eqb_spec j i) as [->|Ne]; [injection E as <-; reflexivity|]. destruct (position i l) as [k'|]; [|discriminate]. injection E as <-. apply IH. reflexivity.
Qed.
Lemma numbers_nth : forall k n i, i < k -> nth_error (numbers n k) i = Some (n + N.of_nat i)%N.
Proof. induction k as [|k IH]; intros n [|i] L; try lia; cbn; [f_equal; lia|]. rewrite IH by lia. f_equal. lia. Qed.
Lemma numbers_length : forall k n, length (numbers n k) = k.
Proof. induction k as [|k IH]; intros n; cbn; [reflexivity|]. rewrite IH. reflexivity. Qed.
Lemma lookup_pairs l : forall n m i, NoDup l -> lookup i (rev (combine l (map Var (seq n (length l)))) ++ m) =
  match position i l with Some k => Some (Var (n + k)) | None => lookup i m end.
Proof.
  induction l as [|j l IH]; intros n m i D; [reflexivity|]. inversion D as [|? ? Nj Dl]; subst. cbn [length seq map combine rev]. rewrite <- app_assoc. rewrite IH by exact Dl. cbn.
  destruct (N.eqb_spec j i) as [->|Ne].
  - destruct (position i l) eqn:E; [exfalso; apply Nj; apply position_in; congruence|]. rewrite Nat.add_0_r. reflexivity.
  - destruct (position i l) as [k|]; cbn; [f_equal; f_equal; lia|reflexivity].
Qed.
Lemma copy_resolves st st' m f t u : longer st st' -> resolves st t u ->
  (forall i, In i (generics u) -> match m i with Some x => exists j, f i = Some j /\ resolves st' x (TVar j) | None => f i = None end) ->
  forall t', copy st m t t' -> resolves st' t' (instance f u).
Proof.
  intros Lo. 
  assert (HL : forall us l, Forall2 (fun t u => (forall i, In i (generics u) -> match m i with Some x => exists j, f i = Some j /\ resolves st' x (TVar j) | None => f i = None end) ->
      forall t', copy st m t t' -> resolves st' t' (instance f u)) l us ->
    (forall i, In i (flat_map generics us) -> match m i with Some x => exists j, f i = Some j /\ resolves st' x (TVar j) | None => f i = None end) ->
    forall l', Forall2 (copy st m) l l' -> Forall2 (resolves st') l' (map (instance f) us)).
  { induction 1 as [|t' u' l us H _ IH]; intros E l' F; inversion F; subst; constructor.
    - apply H; [|assumption]. intros i Hi. apply E. cbn. apply in_or_app. left. exact Hi.
    - apply IH; [|assumption]. intros i Hi. apply E. cbn. apply in_or_app. right. exact Hi. }
  intros R. induction R as [c id H|c id H|c t u H R IH|d x n l v us R IH|l r us u R IH R' IH'|l us R IH] using resolves_ind'; intros E t' C.
  - inversion C as [? ? ? H'|? ? H'|? ? ? H'|? ? H'| | |]; subst; rewrite H in H'; try discriminate. constructor. eapply longer_get; eassumption.
  - specialize (E id (or_introl eq_refl)). cbn [instance].
    inversion C as [? ? ? H'|? ? H'|? ? ? H' M|? ? H' M| | |]; subst; rewrite H in H'; try discriminate; injection H' as <-; rewrite M in E.
    + destruct E as (j & -> & Rj). exact Rj.
    + rewrite E. constructor. eapply longer_get; eassumption.
  - inversion C as [? ? ? H' C'|? ? H'|? ? ? H'|? ? H'| | |]; subst; rewrite H in H'; try discriminate. injection H' as <-. apply IH; assumption.
  - inversion C; subst. cbn. constructor. eapply HL; eassumption.
  - inversion C; subst. cbn. constructor; [eapply HL; try eassumption|apply IH'; [|assumption]]; intros i Hi; apply E; cbn; apply in_or_app; tauto.
  - inversion C; subst. cbn. constructor. eapply HL; eassumption.
Qed.
Lemma finite_more st vs : finite st -> Forall (fun v => match v with Link _ => False | _ => True end) vs -> finite (st ++ vs).
Proof.
  intros F V c L. destruct (Nat.lt_ge_cases c (length st)) as [Lc|Lc].
  - destruct (F c Lc) as [u R]. exists u. apply resolves_more. exact R.
  - destruct (nth_error (st ++ vs) c) as [v|] eqn:E; [|apply nth_error_None in E; lia]. pose proof E as E'. rewrite nth_error_app2 in E' by exact Lc. apply nth_error_In in E'.
    rewrite Forall_forall in V. specialize (V v E'). destruct v; [eexists; eapply resolves_unbound; exact E|contradiction|eexists; eapply resolves_generic; exact E].
Qed.
Lemma counted_more e k al : counted e -> distinct (variables e) ->
  let e' := Env (variables e ++ map Unbound (numbers (ids e) k)) (ids e + N.of_nat k)%N al in counted e' /\ distinct (variables e').
Proof.
  intros C D e'.
  assert (G : forall c i, nth_error (variables e') c = Some (Unbound i) -> (c < length (variables e) /\ nth_error (variables e) c = Some (Unbound i)) \/
    (exists j, j < k /\ c = length (variables e) + j /\ i = (ids e + N.of_nat j)%N)).
  { intros c i H. cbn in H. destruct (Nat.lt_ge_cases c (length (variables e))) as [L|L].
    - left. split; [exact L|]. rewrite nth_error_app1 in H by exact L. exact H.
    - right. rewrite nth_error_app2 in H by exact L. exists (c - length (variables e)). rewrite nth_error_map in H.
      destruct (Nat.lt_ge_cases (c - length (variables e)) k) as [Lk|Lk]; [|assert (X : nth_error (numbers (ids e) k) (c - length (variables e)) = None) by (apply nth_error_None; rewrite numbers_length; exact Lk); rewrite X in H; discriminate].
      rewrite numbers_nth in H by exact Lk. injection H as <-. split; [exact Lk|]. split; [lia|reflexivity]. }
  split.
  - intros c i H. destruct (G c i H) as [(_ & H')|(j & Lj & _ & ->)]; cbn; [specialize (C _ _ H'); lia|lia].
  - intros c c' i H H'. destruct (G c i H) as [(_ & X)|(j & Lj & Ec & Ei)]; destruct (G c' i H') as [(_ & X')|(j' & Lj' & Ec' & Ei')].
    + eapply D; eassumption.
    + specialize (C _ _ X). lia.
    + specialize (C _ _ X'). lia.
    + lia.
Qed.
Lemma instance_closed f u : generics u = [] -> (forall i, In i (unbounds u) -> f i <> None) ->
  instance f (closed u) = apply (fun i => match f i with Some j => TVar j | None => TVar i end) u.
Proof.
  assert (HL : forall l, Forall (fun u => generics u = [] -> (forall i, In i (unbounds u) -> f i <> None) -> instance f (closed u) = apply (fun i => match f i with Some j => TVar j | None => TVar i end) u) l ->
    flat_map generics l = [] -> (forall i, In i (flat_map unbounds l) -> f i <> None) -> map (instance f) (map closed l) = map (apply (fun i => match f i with Some j => TVar j | None => TVar i end)) l).
  { induction 1 as [|x l Hx _ IH]; cbn; intros G Fn; [reflexivity|]. apply app_eq_nil in G. destruct G as [G1 G2]. f_equal; [apply Hx; [exact G1|]|apply IH; [exact G2|]]; intros i Hi; apply Fn; apply in_or_app; tauto. }
  induction u as [i|i|m n l IH|l r IH IHr|l IH] using term_ind'; cbn; intros G Fn.
  - specialize (Fn i (or_introl eq_refl)). destruct (f i); [reflexivity|congruence].
  - discriminate.
  - f_equal. apply HL; assumption.
  - apply app_eq_nil in G. destruct G as [G1 G2]. f_equal; [apply HL; try assumption|apply IHr; [exact G2|]]; intros i Hi; apply Fn; apply in_or_app; tauto.
  - f_equal. apply HL; assumption.
Qed.
Lemma generics_closed u : forall i, In i (generics (closed u)) <-> In i (generics u) \/ In i (unbounds u).
Proof.
  assert (HL : forall l, Forall (fun u => forall i, In i (generics (closed u)) <-> In i (generics u) \/ In i (unbounds u)) l ->
    forall i, In i (flat_map generics (map closed l)) <-> In i (flat_map generics l) \/ In i (flat_map unbounds l)).
  { induction 1 as [|x l Hx _ IH]; cbn; intros i; [tauto|]. rewrite !in_app_iff, Hx, IH. tauto. }
  induction u as [i|i|m n l IH|l r IH IHr|l IH] using term_ind'; cbn; intros j; try tauto.
  - apply HL. exact IH.
  - rewrite !in_app_iff, IHr, HL by exact IH. tauto.
  - apply HL. exact IH.
Qed.

(** ** Function types *)
Lemma numbers_app : forall k n j, numbers n (k + j) = numbers n k ++ numbers (n + N.of_nat k)%N j.
Proof. induction k as [|k IH]; intros n j; cbn; [f_equal; lia|]. rewrite IH. do 2 f_equal. f_equal. lia. Qed.
Lemma new_unbound_vars_spec k : forall e, new_unbound_vars k e =
  (map Var (seq (length (variables e)) k), Env (variables e ++ map Unbound (numbers (ids e) k)) (ids e + N.of_nat k)%N (deferred_type_variable_aliases e)).
Proof.
  induction k as [|k IH]; intros e; cbn [new_unbound_vars].
  - cbn. rewrite app_nil_r, N.add_0_r. destruct e. reflexivity.
  - unfold new_unbound_var, next_uid, allocate. cbn [variables ids deferred_type_variable_aliases]. rewrite IH. cbn [variables ids deferred_type_variable_aliases]. rewrite app_length, <- app_assoc. cbn [length seq map numbers app].
    replace (length (variables e) + 1) with (S (length (variables e))) by lia. f_equal. f_equal. lia.
Qed.
Lemma map_nth_seq {A} (d : A) l : map (fun i => nth i l d) (seq 0 (length l)) = l.
Proof. induction l as [|a l IH]; cbn; [reflexivity|]. f_equal. rewrite <- seq_shift, map_map. exact IH. Qed.
Lemma numbers_seq : forall k n, numbers n k = map (fun i => (n + N.of_nat i)%N) (seq 0 k).
Proof. induction k as [|k IH]; intros n; cbn; [reflexivity|]. f_equal; [lia|]. rewrite IH, <- seq_shift, map_map. apply map_ext. intros i. lia. Qed.
Lemma fresh_resolve e k : Forall2 (resolves (variables e ++ map Unbound (numbers (ids e) k))) (map Var (seq (length (variables e)) k)) (map TVar (numbers (ids e) k)).
Proof.
  assert (X : forall j l, (forall i, In i l -> i < k) -> j = length (variables e) ->
     Forall2 (resolves (variables e ++ map Unbound (numbers (ids e) k))) (map Var (map (fun i => j + i) l)) (map TVar (map (fun i => (ids e + N.of_nat i)%N) l))).
  { intros j l Hl ->. induction l as [|i l IH]; cbn; constructor; [|apply IH; intros x Hx; apply Hl; right; exact Hx].
    constructor. rewrite nth_error_app2 by lia. replace (length (variables e) + i - length (variables e)) with i by lia. rewrite nth_error_map, numbers_nth by (apply Hl; left; reflexivity). reflexivity. }
  specialize (X _ (seq 0 k) (fun i Hi => proj2 (proj1 (in_seq _ _ _) Hi)) eq_refl). rewrite <- numbers_seq in X.
  replace (map (fun i => length (variables e) + i) (seq 0 k)) with (seq (length (variables e)) k) in X; [exact X|].
  clear. generalize (length (variables e)). induction k as [|k IH]; intros n; cbn; [reflexivity|]. f_equal; [lia|]. rewrite IH, <- seq_shift, map_map. apply map_ext. intros i. lia.
Qed.
Definition fn_matched (e : env) (t : type) (u : term) (arity : nat) (r : matched) : Prop :=
  match r with
  | Matches l ret e' => exists a us w, solved (variables e) (variables e') a /\ well e' /\
      length l = arity /\ Forall2 (resolves (variables e')) l us /\ resolves (variables e') ret w /\ apply a u = TFn us w /\
      forall b us' w', apply b u = TFn us' w' -> length us' = arity -> exists c, (forall i, (i < ids e)%N -> apply c (a i) = b i) /\ map (apply c) us = us' /\ apply c w = w'
  | Fails (IncorrectArity expected given l ret) e' => e' = e /\ given = arity /\ expected <> arity /\ length l = expected /\
      exists us w, u = TFn us w /\ Forall2 (resolves (variables e)) l us /\ resolves (variables e) ret w
  | Fails (NotFn x) e' => e' = e /\ shown (variables e) t x /\ forall b us w, apply b u <> TFn us w
  | MatchPanics => False
  | MatchOutOfFuel => True
  end.
Lemma match_fun_type_spec fuel : forall t arity e u, well e -> resolves (variables e) t u -> fn_matched e t u arity (match_fun_type fuel t arity e).
Proof.
  induction fuel as [|fuel IH]; intros t arity e u W R; [exact I|]. cbn [match_fun_type]. destruct t as [d x n l v|l r|l|c].
  - inversion R; subst. cbn. split; [reflexivity|]. split; [apply shown_other; reflexivity|]. discriminate.
  - inversion R as [| | | |? ? us w Rl Rr|]; subst. cbn. destruct (Nat.eqb_spec (length l) arity) as [E|E].
    + exists TVar, us, w. split; [intros t u; rewrite apply_id; auto|]. split; [exact W|]. split; [exact E|]. split; [exact Rl|]. split; [exact Rr|]. split; [apply (apply_id (TFn us w))|].
      intros b us' w' [= <- <-] _. exists b. auto.
    + split; [reflexivity|]. split; [reflexivity|]. split; [exact E|]. split; [reflexivity|]. exists us, w. auto.
  - inversion R; subst. cbn. split; [reflexivity|]. split; [apply shown_other; reflexivity|]. discriminate.
  - inversion R as [? i H|? i H|? t ? H Rt| | |]; subst; rewrite H.
    + rewrite new_unbound_vars_spec. unfold new_unbound_var, next_uid, allocate. cbn [variables ids deferred_type_variable_aliases]. rewrite <- app_assoc.
      assert (Es : map Unbound (numbers (ids e) arity) ++ [Unbound (ids e + N.of_nat arity)] = map Unbound (numbers (ids e) (S arity))).
      { replace (S arity) with (arity + 1) by lia. rewrite numbers_app, map_app. reflexivity. }
      rewrite Es. set (st1 := variables e ++ map Unbound (numbers (ids e) (S arity))) in *.
      pose proof (fresh_resolve e (S arity)) as FR. fold st1 in FR. replace (S arity) with (arity + 1) in FR by lia. rewrite seq_app, numbers_app, !map_app in FR. cbn [seq map numbers] in FR.
      apply Forall2_app_inv_l in FR. destruct FR as (x1 & x2 & F1 & F2 & Ex).
      destruct W as (Fi & D & C).
      destruct (counted_more e (S arity) (deferred_type_variable_aliases e) C D) as [C1 D1]. cbn [variables] in D1. fold st1 in D1.
      assert (Lx : length x1 = arity) by (erewrite resolves_length by exact F1; rewrite map_length, seq_length; reflexivity).
      assert (E1 : x1 = map TVar (numbers (ids e) arity) /\ x2 = [TVar (ids e + N.of_nat arity)]).
      { inversion F2 as [|? y ? y' Hy F2']; subst. inversion F2'; subst. apply app_inj_tail in Ex. destruct Ex as [Ex1 Ex2]. split; congruence. }
      destruct E1 as [-> ->]. inversion F2 as [|? ? ? ? Rr _]; subst. rewrite app_length, map_length, numbers_length.
      set (ret := Var (length (variables e) + arity)) in *. set (args := map Var (seq (length (variables e)) arity)) in *.
      set (us := map TVar (numbers (ids e) arity)) in *. set (w := TVar (ids e + N.of_nat arity)) in *.
      assert (Rf : resolves st1 (Fn args ret) (TFn us w)) by (constructor; assumption).
      assert (Hc : nth_error st1 c = Some (Unbound i)) by (unfold st1; eapply longer_get; [eexists; reflexivity|exact H]).
      pose proof (C _ _ H) as Li.
      assert (NOu : forall x, In x us -> ~ occurs i x).
      { intros x Hx O. unfold us in Hx. apply in_map_iff in Hx. destruct Hx as (j & <- & Hj). rewrite numbers_seq in Hj. apply in_map_iff in Hj. destruct Hj as (q & <- & _). inversion O. lia. }
      assert (NO : ~ occurs i (TFn us w)).
      { intros O. inversion O as [| |? ? x Hx Ox|? ? Ox|]; [apply (NOu x Hx Ox)|]. inversion Ox. lia. }
      pose proof (bind_link st1 c i (Fn args ret) (TFn us w) Hc D1 Rf NO eq_refl) as A.
      exists (single i (TFn us w)), us, w. cbn [variables].
      assert (Keep : forall x, In x us \/ x = w -> apply (single i (TFn us w)) x = x).
      { intros x Hx. apply apply_single_absent. intros O. apply NO. destruct Hx as [Hx| ->]; [eapply sub_fn; eassumption|apply sub_return; exact O]. }
      split; [intros t u Rt; apply (after_resolves _ _ _ A); apply resolves_more; exact Rt|].
      split.
      { split; [|split].
        - eapply after_finite; [exact A|]. apply finite_more; [exact Fi|]. apply Forall_forall. intros y Hy. apply in_map_iff in Hy. destruct Hy as (q & <- & _). exact I.
        - eapply after_distinct; [exact A|exact D1].
        - intros c' j Hj. cbn [variables ids] in *. apply (after_unbound _ _ _ A) in Hj. specialize (C1 c' j Hj). cbn [ids] in C1. lia. }
      split; [unfold args; rewrite map_length, seq_length; reflexivity|].
      split. { rewrite <- (map_id us). rewrite <- (map_ext_in (apply (single i (TFn us w)))) by (intros x Hx; apply Keep; left; exact Hx). apply Forall2_map_r. eapply Forall2_imp; [|exact F1]. intros x y. apply (after_resolves _ _ _ A). }
      split; [rewrite <- (Keep w (or_intror eq_refl)); apply (after_resolves _ _ _ A); exact Rr|].
      split; [cbn; unfold single; rewrite N.eqb_refl; reflexivity|].
      intros b us' w' Eb Lu. cbn in Eb.
      set (g := fun j => if (j <? ids e)%N then b j else nth (N.to_nat (j - ids e)) (us' ++ [w']) (TVar 0)).
      exists g.
      assert (Gu : map (apply g) us = us').
      { unfold us. rewrite numbers_seq, !map_map. transitivity (map (fun i => nth i us' (TVar 0)) (seq 0 (length us'))); [|apply map_nth_seq]. rewrite Lu. apply map_ext_in. intros q Hq. apply in_seq in Hq. cbn. unfold g.
        destruct (N.ltb_spec (ids e + N.of_nat q) (ids e)); [lia|]. replace (N.to_nat (ids e + N.of_nat q - ids e)) with q by lia. apply app_nth1. lia. }
      assert (Gw : apply g w = w').
      { unfold w. cbn. unfold g. destruct (N.ltb_spec (ids e + N.of_nat arity) (ids e)); [lia|]. replace (N.to_nat (ids e + N.of_nat arity - ids e)) with arity by lia. rewrite app_nth2 by lia. rewrite Lu, Nat.sub_diag. reflexivity. }
      split; [|split; [exact Gu|exact Gw]]. intros j Lj. unfold single. destruct (N.eqb_spec j i) as [->|Ne]; [change (TFn (map (apply g) us) (apply g w) = b i); rewrite Gu, Gw; symmetry; exact Eb|]. cbn. unfold g. destruct (N.ltb_spec j (ids e)); [reflexivity|lia].
    + cbn. split; [reflexivity|]. split; [eapply shown_var; [exact H|exact I]|]. discriminate.
    + specialize (IH t arity e u W Rt). destruct (match_fun_type fuel t arity e) as [l r e'|[ex gi l r|x] e'| |]; try exact IH. destruct IH as (E & S & N). split; [exact E|]. split; [eapply shown_link; eassumption|exact N].
Qed.
Lemma match_fun_type_settles arity e : forall n t, steps (variables e) t n -> settles MatchOutOfFuel (fun fuel => match_fun_type fuel t arity e).
Proof.
  induction n as [n IH] using lt_wf_ind. intros t1 H.
  assert (F : forall t, match_fn t arity e <> MatchOutOfFuel) by (intros [| | |]; cbn; try discriminate; destruct (Nat.eqb _ _); discriminate).
  inversion H as [c v Hc V|c t k Hc Ht|d m nm l v k Hl|l r k j Hl Hr|l k Hl]; subst; (eapply settles_more; [intros fuel; cbn [match_fun_type]; try rewrite Hc; reflexivity|]);
    try (exists 0; eexists; split; [|intros; reflexivity]; apply F).
  - destruct v; try contradiction; [|exists 0; eexists; split; [|intros; reflexivity]; apply F].
    destruct (new_unbound_vars arity e). destruct (new_unbound_var e0). settled.
  - eapply IH; [|exact Ht]. lia.
Qed.
