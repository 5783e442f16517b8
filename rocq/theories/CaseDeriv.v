(** Branches derived from others by a split, and how they keep the invariants. *)
From Coq Require Import ZArith NArith Bool List Lia Permutation.
From Verif Require Import Text Strings StringsSpec Bits BitsSpec BitsProofs Case CaseSpec CaseText CasePure CaseSem CaseStatic CaseMove CaseResidual.
Import ListNotations.
Local Open Scope nat_scope.

(** [sub R l m]: [m] is related to a part of [l], in the same order. *)
Inductive sub {A B} (R : A -> B -> Prop) : list A -> list B -> Prop :=
  | sub_nil : sub R [] []
  | sub_skip l a m : sub R l m -> sub R (l ++ [a]) m
  | sub_take l a m b : sub R l m -> R a b -> sub R (l ++ [a]) (m ++ [b]).
Lemma sub_in {A B} (R : A -> B -> Prop) l m b : sub R l m -> In b m -> exists a, In a l /\ R a b.
Proof.
  induction 1 as [|l a m S IH|l a m b' S IH H]; intros I; [destruct I| |].
  - destruct (IH I) as (x & X & Y). exists x. rewrite in_app_iff. auto.
  - apply in_app_iff in I as [I|[<-|[]]].
    + destruct (IH I) as (x & X & Y). exists x. rewrite in_app_iff. auto.
    + exists a. rewrite in_app_iff. cbn. auto.
Qed.
Lemma sub_pairs {A B} (R : A -> B -> Prop) (K : A -> A -> Prop) (K' : B -> B -> Prop) l m :
  sub R l m -> (forall a b a' b', In a l -> In b l -> K a b -> R a a' -> R b b' -> K' a' b') -> pairs K l -> pairs K' m.
Proof.
  induction 1 as [|l a m S IH|l a m b S IH H]; intros KK P; [exact I| |].
  - apply pairs_app in P as (P & _ & _). apply IH; [|assumption].
    intros; eapply KK; try eassumption; rewrite in_app_iff; auto.
  - apply pairs_app in P as (P & _ & F). apply pairs_app. split; [|split].
    + apply IH; [|assumption]. intros; eapply KK; try eassumption; rewrite in_app_iff; auto.
    + cbn. auto.
    + apply Forall_forall. intros x I. constructor; [|constructor].
      destruct (sub_in _ _ _ _ S I) as (y & Y1 & Y2). rewrite Forall_forall in F. specialize (F y Y1). inversion F; subst.
      eapply KK; try eassumption; rewrite in_app_iff; cbn; auto.
Qed.
Lemma sub_nodup {A B C} (R : A -> B -> Prop) (f : A -> C) (g : B -> C) l m : sub R l m ->
  (forall a b, R a b -> g b = f a) -> NoDup (map f l) -> NoDup (map g m).
Proof.
  intros S E. assert (forall x, In x (map g m) -> In x (map f l)) as SUB.
  { intros x I. apply in_map_iff in I as (b & <- & I). destruct (sub_in _ _ _ _ S I) as (a & A1 & A2).
    rewrite (E _ _ A2). now apply in_map. }
  revert SUB. induction S as [|l a m S IH|l a m b S IH H]; intros SUB N; [constructor| |].
  - rewrite map_app in N. cbn in N. apply NoDup_remove_1 in N. rewrite app_nil_r in N. apply IH; [|assumption].
    intros x I. apply in_map_iff in I as (b & <- & I). destruct (sub_in _ _ _ _ S I) as (y & A1 & A2).
    rewrite (E _ _ A2). now apply in_map.
  - rewrite map_app in *. cbn in *. pose proof (NoDup_remove_1 _ _ _ N) as N1. pose proof (NoDup_remove_2 _ _ _ N) as N2.
    rewrite app_nil_r in *.
    assert (forall x, In x (map g m) -> In x (map f l)) as SUB2.
    { intros x I. apply in_map_iff in I as (y & <- & I). destruct (sub_in _ _ _ _ S I) as (z & A1 & A2).
      rewrite (E _ _ A2). now apply in_map. }
    apply (Permutation_NoDup (l := g b :: map g m)); [apply Permutation_cons_append|].
    constructor; [|now apply IH]. rewrite (E _ _ H). intros I. apply N2, SUB2, I.
Qed.
Lemma sub_forall {A B} (R : A -> B -> Prop) (P : A -> Prop) (Q : B -> Prop) l m : sub R l m ->
  (forall a b, In a l -> P a -> R a b -> Q b) -> Forall P l -> Forall Q m.
Proof.
  intros S E F. apply Forall_forall. intros b I. destruct (sub_in _ _ _ _ S I) as (a & A1 & A2).
  rewrite Forall_forall in F. eauto.
Qed.
Lemma sub_mono {A B} (R R' : A -> B -> Prop) l m : (forall a b, R a b -> R' a b) -> sub R l m -> sub R' l m.
Proof. intros H. induction 1; [apply sub_nil|now apply sub_skip|apply sub_take; auto]. Qed.
Lemma NoDup_app_intro {A} (a b : list A) : NoDup a -> NoDup b -> (forall x, In x a -> In x b -> False) -> NoDup (a ++ b).
Proof.
  induction 1 as [|x a N D IH]; cbn; intros NB H; [assumption|]. constructor.
  - rewrite in_app_iff. intros [I|I]; [tauto|]. apply (H x); auto.
  - apply IH; [assumption|]. intros y I J. apply (H y); auto.
Qed.

Lemma pop_check_some {P} pv (cs : list (cvar * P)) : forall c rest, pop_check pv cs = Some (c, rest) ->
  id (fst c) = id pv /\ Permutation cs (c :: rest).
Proof.
  induction cs as [|d cs IH]; intros c rest; cbn; [discriminate|].
  unfold same_variable. destruct (Nat.eqb_spec (id (fst d)) (id pv)) as [E|E].
  - intros [= -> ->]. auto.
  - destruct (pop_check pv cs) as [[c' rest']|]; [|discriminate]. intros [= -> <-].
    destruct (IH c rest' eq_refl) as [A B]. split; [assumption|].
    eapply Permutation_trans; [apply perm_skip, B|]. apply perm_swap.
Qed.
Lemma pop_check_none {P} pv (cs : list (cvar * P)) : pop_check pv cs = None ->
  Forall (fun c => id (fst c) <> id pv) cs.
Proof.
  induction cs as [|d cs IH]; cbn; [constructor|].
  unfold same_variable. destruct (Nat.eqb_spec (id (fst d)) (id pv)) as [E|E]; [discriminate|].
  destruct (pop_check pv cs) as [[c' rest']|]; [discriminate|]. constructor; auto.
Qed.

Section Deriv.
  Context (env : environment)
          (outside : text -> Z)
          (float_is : text -> endianness -> list bool -> bool)
          (finite : endianness -> list bool -> bool)
          (float_value : text -> val).
  Notation okt := (okt env outside float_is finite).
  Notation okb := (okb env outside float_is finite).
  Notation goodb := (goodb env outside float_is finite).
  Notation tgood := (tgood outside float_is finite).
  Notation has_type := (has_type env).
  Notation badb := (badb env).
  Notation bad := (bad env).
  Notation tcheck := (tcheck env).
  Notation alike := (alike outside float_is finite float_value).
  Notation tmatch := (tmatch outside float_is finite).
  Notation checks_match := (checks_match outside float_is finite).
  Context (pv : cvar).

  (** The pivot's check replaced by others. *)
  Definition rep (R : tree -> list (cvar * tree) -> Prop) (b b' : branch tree) : Prop :=
    exists p cs new, Permutation (checks b) ((pv, p) :: cs) /\ b' = with_checks b (cs ++ new) /\ R p new.
  Definition keeps (b : branch tree) : Prop := Forall (fun c => id (fst c) <> id pv) (checks b).
  Definition deriv (R : tree -> list (cvar * tree) -> Prop) (b b' : branch tree) : Prop :=
    (keeps b /\ b' = b) \/ rep R b b'.

  (** What the new checks must satisfy; [n0] is the first fresh variable. *)
  Record nice (n0 : nat) (G : nat -> ctype) (n : nat) (R : tree -> list (cvar * tree) -> Prop) : Prop := {
    nice_okt : forall p new, R p new -> Forall (fun q => var_type (fst q) = G (id (fst q)) /\
      okt true (var_type (fst q)) (snd q) /\ id (fst q) < n /\ (id (fst q) = id pv \/ n0 <= id (fst q))) new;
    nice_nodup : forall p new, R p new -> NoDup (map (fun q => id (fst q)) new);
    nice_irref : forall p new, R p new -> irref p = true -> Forall (fun q => irref (snd q) = true) new;
    nice_size : forall p new, R p new -> csize new <= tsize p;
    nice_bad : forall p new q, R p new -> In q new -> bad (var_type (fst q)) (snd q) -> bad (var_type pv) p;
    nice_clash : forall p new q new' u p' o u' q' k sibs, R p new -> R q new' ->
      Permutation new ((u, p') :: o) -> In (u', q') new' -> id u' = id u -> tclash k p' q' sibs ->
      exists sibs0, tclash k p q sibs0 /\ (Forall (fun t => irref t = true) sibs0 ->
        Forall (fun q => irref (snd q) = true) o /\ Forall (fun t => irref t = true) sibs)
  }.

  Lemma okb_pivot G n b p cs : okb G n b -> Permutation (checks b) ((pv, p) :: cs) ->
    var_type pv = G (id pv) /\ okt true (var_type pv) p /\ id pv < n /\
    Forall (fun c => id (fst c) <> id pv) cs /\ Forall (fun c => id (fst c) < n) cs /\
    Forall (fun c => var_type (fst c) = G (id (fst c)) /\ okt true (var_type (fst c)) (snd c)) cs /\
    NoDup (map (fun c => id (fst c)) cs).
  Proof.
    intros (F & N & [B _]) P.
    apply (Permutation_Forall P) in F. apply (Permutation_Forall P) in B.
    apply (Permutation_map (fun c => id (fst c))) in P. apply (Permutation_NoDup P) in N.
    inversion F as [|? ? [F1 F2] F3]; subst. inversion B; subst. cbn in N. inversion N; subst. cbn in *.
    repeat split; auto. apply Forall_forall. intros c I E. apply H3. rewrite <- E. apply in_map_iff. now exists c.
  Qed.

  Lemma deriv_okb n0 G0 G n R b b' : nice n0 G n R -> okb G0 n0 b -> (forall i, i < n0 -> G i = G0 i) -> n0 <= n ->
    deriv R b b' -> okb G n b'.
  Proof.
    intros NR O E L [[K ->]|(p & cs & new & P & -> & HR)].
    { eapply okb_mono; eassumption. }
    destruct (okb_pivot _ _ _ _ _ O P) as (V & OP & LP & F1 & F2 & F3 & ND).
    pose proof (nice_okt _ _ _ _ NR _ _ HR) as ON. pose proof (nice_nodup _ _ _ _ NR _ _ HR) as NN.
    split; [|split; [|split]]; cbn [checks with_checks branch_body].
    - apply Forall_app. split.
      + rewrite Forall_forall in *. intros c I. specialize (F3 c I). specialize (F2 c I). cbn in *. rewrite E by assumption. assumption.
      + eapply Forall_impl; [|exact ON]. cbn. tauto.
    - rewrite map_app. apply NoDup_app_intro; auto.
      intros x I1 I2. apply in_map_iff in I1 as (c & <- & I1). apply in_map_iff in I2 as (d & E2 & I2).
      rewrite Forall_forall in *. specialize (F1 c I1). specialize (F2 c I1).
      destruct (ON d I2) as (_ & _ & _ & [D|D]); cbn in *; [congruence|lia].
    - apply Forall_app. split.
      + eapply Forall_impl; [|exact F2]. cbn. lia.
      + eapply Forall_impl; [|exact ON]. cbn. tauto.
    - destruct O as (_ & _ & [_ B]). eapply Forall_impl; [|exact B]. intros [x []]; cbn; lia.
  Qed.

  Lemma deriv_same R b b' : deriv R b b' -> branch_id b' = branch_id b /\ guard b' = guard b.
  Proof. intros [[_ ->]|(p & cs & new & _ & -> & _)]; auto. Qed.
  Lemma deriv_weight n0 G n R b b' : nice n0 G n R -> deriv R b b' -> weight b' <= weight b.
  Proof.
    intros NR [[_ ->]|(p & cs & new & P & -> & HR)]; [lia|]. unfold weight. cbn [checks with_checks].
    rewrite (csize_perm _ _ P), csize_app. pose proof (nice_size _ _ _ _ NR _ _ HR).
    change (csize ((pv, p) :: cs)) with (tsize p + csize cs). lia.
  Qed.
  Lemma deriv_badb n0 G n R b b' : nice n0 G n R -> deriv R b b' -> badb b' -> badb b.
  Proof.
    intros NR [[_ ->]|(p & cs & new & P & -> & HR)]; [auto|]. intros (c & I & B). cbn [checks with_checks] in I.
    apply in_app_iff in I as [I|I].
    - exists c. split; [|assumption]. apply (Permutation_in c (Permutation_sym P)). now right.
    - exists (pv, p). split; [apply (Permutation_in _ (Permutation_sym P)); now left|]. eapply nice_bad; eassumption.
  Qed.

  Lemma deriv_compat n0 G0 G n R b c b' c' : nice n0 G n R -> okb G0 n0 b -> okb G0 n0 c -> compat b c ->
    deriv R b b' -> deriv R c c' -> compat b' c'.
  Proof.
    intros NR OB OC K DB DC v p others w q k sibs P I E C.
    destruct (deriv_same _ _ _ DB) as [_ GB].
    (* where the second check comes from *)
    assert ((In (w, q) (checks c) /\ id w <> id pv /\ id w < n0) \/
            exists q0 new, In (pv, q0) (checks c) /\ R q0 new /\ In (w, q) new) as WHERE.
    { destruct DC as [[KC ->]|(q0 & cs & new & PC & -> & HR)].
      - left. split; [assumption|]. unfold keeps in KC. rewrite Forall_forall in KC. split; [apply (KC _ I)|].
        destruct OC as (_ & _ & [B _]). rewrite Forall_forall in B. apply (B _ I).
      - cbn [checks with_checks] in I. apply in_app_iff in I as [I|I].
        + left. destruct (okb_pivot _ _ _ _ _ OC PC) as (_ & _ & _ & F1 & F2 & _ & _). rewrite Forall_forall in F1, F2.
          split; [apply (Permutation_in _ (Permutation_sym PC)); now right|]. split; [apply (F1 _ I)|apply (F2 _ I)].
        + right. exists q0, new. split; [apply (Permutation_in _ (Permutation_sym PC)); now left|]. auto. }
    destruct DB as [[KB ->]|(p0 & cs & new & PB & -> & HR)].
    - destruct WHERE as [(I' & _ & _)|(q0 & new & I' & HR & IN)]; [eapply K; eassumption|].
      (* the first branch has no check on the pivot or on fresh variables *)
      exfalso. pose proof (nice_okt _ _ _ _ NR _ _ HR) as ON. rewrite Forall_forall in ON. destruct (ON _ IN) as (_ & _ & _ & D).
      assert (In (v, p) (checks b)) as IV by (apply (Permutation_in _ (Permutation_sym P)); now left).
      unfold keeps in KB. rewrite Forall_forall in KB. specialize (KB _ IV).
      destruct OB as (_ & _ & [B _]). rewrite Forall_forall in B. specialize (B _ IV). cbn in *. destruct D; [congruence|lia].
    - destruct (okb_pivot _ _ _ _ _ OB PB) as (_ & _ & _ & F1 & F2 & _ & _).
      pose proof (nice_okt _ _ _ _ NR _ _ HR) as ON.
      cbn [checks with_checks] in P.
      apply perm_cons_split in P as (l1 & l2 & E1 & P).
      assert ((exists m1 m2, cs = m1 ++ (v, p) :: m2 /\ Permutation ((m1 ++ m2) ++ new) others) \/
              (exists m1 m2, new = m1 ++ (v, p) :: m2 /\ Permutation (cs ++ m1 ++ m2) others)) as SIDE.
      { apply app_eq_app in E1 as (l & [[-> E1]|[-> E1]]).
        - destruct l as [|x l]; cbn in E1.
          + subst. right. exists [], l2. split; [reflexivity|]. rewrite app_nil_r. exact P.
          + injection E1 as <- ->. left. exists l1, l. split; [reflexivity|]. now rewrite <- app_assoc.
        - subst. right. exists l, l2. split; [reflexivity|]. now rewrite <- app_assoc in P. }
      destruct SIDE as [(m1 & m2 & -> & P')|(m1 & m2 & -> & P')].
      + destruct WHERE as [(I' & _ & _)|(q0 & new' & I' & HR' & IN)].
        * destruct (K v p ((pv, p0) :: m1 ++ m2) w q k sibs) as [(A1 & A2 & A3)|[A1 A2]]; auto.
          { eapply Permutation_trans; [exact PB|]. eapply Permutation_trans; [apply perm_skip, Permutation_sym, Permutation_middle|]. apply perm_swap. }
          -- left. split; [now rewrite GB|]. split; [|assumption]. inversion A2; subst.
             apply (Permutation_Forall P'). apply Forall_app. split; [assumption|]. eapply nice_irref; eassumption.
        * exfalso. pose proof (nice_okt _ _ _ _ NR _ _ HR') as ON'. rewrite Forall_forall in *. destruct (ON' _ IN) as (_ & _ & _ & D).
          assert (In (v, p) (m1 ++ (v, p) :: m2)) as IV by apply in_elt.
          specialize (F1 _ IV). specialize (F2 _ IV). cbn in *. destruct D; [congruence|lia].
      + destruct WHERE as [(I' & W1 & W2)|(q0 & new' & I' & HR' & IN)].
        * exfalso. rewrite Forall_forall in ON. destruct (ON (v, p) (in_elt _ _ _)) as (_ & _ & _ & D). cbn in *. destruct D; [congruence|lia].
        * destruct (nice_clash _ _ _ _ NR p0 (m1 ++ (v, p) :: m2) q0 new' v p (m1 ++ m2) w q k sibs) as (sibs0 & C0 & IR); auto.
          { apply Permutation_sym, Permutation_middle. }
          destruct (K pv p0 cs pv q0 k sibs0) as [(A1 & A2 & A3)|[A1 A2]]; auto.
          -- left. split; [now rewrite GB|]. destruct (IR A3) as [I1 I2]. split; [|assumption].
             apply (Permutation_Forall P'). apply Forall_app. split; assumption.
  Qed.

  Lemma sub_inv n0 G0 G n R bs L : nice n0 G n R -> inv env outside float_is finite G0 n0 bs ->
    (forall i, i < n0 -> G i = G0 i) -> n0 <= n -> sub (deriv R) bs L -> inv env outside float_is finite G n L.
  Proof.
    intros NR (O & P & N) E LE S. split; [|split].
    - eapply sub_forall; [exact S| |exact O]. cbn beta. intros a b _ OA D. exact (deriv_okb n0 G0 G n R a b NR OA E LE D).
    - eapply sub_pairs; [exact S| |exact P]. intros a b a' b' IA IB K DA DB. rewrite Forall_forall in O.
      exact (deriv_compat n0 G0 G n R a b a' b' NR (O a IA) (O b IB) K DA DB).
    - eapply sub_nodup; [exact S| |exact N]. intros a b D. now destruct (deriv_same _ _ _ D).
  Qed.
End Deriv.
