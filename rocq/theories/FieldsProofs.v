From Coq Require Import Bool List Arith Lia Permutation.
From Verif Require Import Text TextProofs Fields FieldsSpec.
Import ListNotations.

Lemma get_in {A} (f : list (text * A)) l : NoDup (map fst f) -> forall p, get f l = Some p <-> In (l, p) f.
Proof.
  induction f as [|[k q] f IH]; simpl; intros ND p; [split; [discriminate|tauto]|].
  inversion ND as [|? ? NI ND']; subst.
  destruct (text_eqb k l) eqn:E.
  - apply text_eqb_eq in E as ->. split; [intros [= ->]; auto|]. intros [[= ->]|H]; auto.
    destruct NI. now apply (in_map fst) in H.
  - apply text_eqb_neq in E. rewrite IH by auto. split; [auto|]. intros [[= ->]|H]; [congruence|auto].
Qed.
Lemma get_none {A} (f : list (text * A)) l : get f l = None <-> ~ In l (map fst f).
Proof.
  induction f as [|[k q] f IH]; simpl; [tauto|]. destruct (text_eqb k l) eqn:E.
  - apply text_eqb_eq in E. split; [discriminate|tauto].
  - apply text_eqb_neq in E. rewrite IH. tauto.
Qed.
Lemma contains_in l ls : contains ls l = true <-> In l ls.
Proof.
  induction ls as [|k ls IH]; simpl; [split; [discriminate|tauto]|].
  rewrite orb_true_iff, text_eqb_eq, IH. split; intros [H|H]; auto.
Qed.
Lemma contains_not l ls : contains ls l = false <-> ~ In l ls.
Proof. rewrite <- contains_in. destruct (contains ls l); split; congruence. Qed.

Section Reorder.
Context {A : Type}.
Implicit Types args pre post : list (call_arg A).
Context (fm : field_map).

Definition position_of (a : call_arg A) : option nat :=
  match label a with Some l => get (fields fm) l | None => None end.
Definition kept args := filter (fun a => match position_of a with None => true | Some _ => false end) args.
Definition placed args : list (nat * call_arg A) :=
  flat_map (fun a => match position_of a with Some p => [(p, a)] | None => [] end) args.
Definition known_labels args : list text :=
  flat_map (fun a => match label a, position_of a with Some l, Some _ => [l] | _, _ => [] end) args.
Definition unknown args : list (text * (nat * nat)) :=
  flat_map (fun a => match label a, position_of a with Some l, None => [(l, location a)] | _, _ => [] end) args.

Lemma nth_error_mid {B} (a : list B) x b : nth_error (a ++ x :: b) (length a) = Some x.
Proof. rewrite nth_error_app2 by lia. now rewrite Nat.sub_diag. Qed.
Lemma remove_at_mid {B} (a : list B) x b : remove_at (length a) (a ++ x :: b) = a ++ b.
Proof. induction a as [|y a IH]; simpl; [destruct b; reflexivity|]. now rewrite IH. Qed.
Lemma kept_app a b : kept (a ++ b) = kept a ++ kept b. Proof. apply filter_app. Qed.
Lemma placed_app a b : placed (a ++ b) = placed a ++ placed b. Proof. apply flat_map_app. Qed.
Lemma known_labels_app a b : known_labels (a ++ b) = known_labels a ++ known_labels b. Proof. apply flat_map_app. Qed.
Lemma unknown_app a b : unknown (a ++ b) = unknown a ++ unknown b. Proof. apply flat_map_app. Qed.

Lemma collect_spec pre : forall post seen lab unk, NoDup seen ->
  (NoDup (known_labels pre ++ seen) /\
   collect_labelled fm (length pre) (Collected (pre ++ post) seen lab unk)
   = Fine (Collected (kept pre ++ post) (known_labels pre ++ seen) (placed pre ++ lab) (unk ++ rev (unknown pre))))
  \/ (exists p1 x p2 l, pre = p1 ++ x :: p2 /\ label x = Some l /\ position_of x <> None
      /\ In l (known_labels p2 ++ seen)
      /\ collect_labelled fm (length pre) (Collected (pre ++ post) seen lab unk)
         = Failed (DuplicateArgument (location x) l)).
Proof.
  induction pre as [|a pre IH] using rev_ind; intros post seen lab unk ND.
  { left. simpl. rewrite app_nil_r. auto. }
  rewrite app_length, Nat.add_1_r. cbn [collect_labelled arguments].
  rewrite <- app_assoc. cbn [app]. rewrite nth_error_mid.
  rewrite kept_app, placed_app, known_labels_app, unknown_app.
  cbn [seen_labels labelled_arguments unknown_labels].
  destruct (label a) as [l|] eqn:La.
  - assert (Pa : position_of a = get (fields fm) l) by (unfold position_of; now rewrite La).
    destruct (get (fields fm) l) as [p|] eqn:G.
    + destruct (contains seen l) eqn:C.
      * right. apply contains_in in C. exists pre, a, [], l. rewrite Pa. repeat split; auto. discriminate.
      * apply contains_not in C. rewrite remove_at_mid.
        replace (kept [a]) with (@nil (call_arg A)) by (unfold kept; simpl; now rewrite Pa).
        replace (placed [a]) with [(p, a)] by (unfold placed; simpl; now rewrite Pa).
        replace (known_labels [a]) with [l] by (unfold known_labels; simpl; now rewrite La, Pa).
        replace (unknown [a]) with (@nil (text * (nat * nat))) by (unfold unknown; simpl; now rewrite La, Pa).
        rewrite !app_nil_r, <- !app_assoc. cbn [app].
        destruct (IH post (l :: seen) ((p, a) :: lab) unk) as [[H1 ->]|(p1 & x & p2 & l' & -> & H1 & H2 & H3 & ->)];
          [now constructor|left; split; auto|].
        right. exists p1, x, (p2 ++ [a]), l'. rewrite <- app_assoc. repeat split; auto.
        rewrite known_labels_app. unfold known_labels at 2. simpl. rewrite La, Pa.
        rewrite <- app_assoc. exact H3.
    + replace (kept [a]) with [a] by (unfold kept; simpl; now rewrite Pa).
      replace (placed [a]) with (@nil (nat * call_arg A)) by (unfold placed; simpl; now rewrite Pa).
      replace (known_labels [a]) with (@nil text) by (unfold known_labels; simpl; now rewrite La, Pa).
      replace (unknown [a]) with [(l, location a)] by (unfold unknown; simpl; now rewrite La, Pa).
      rewrite !app_nil_r, <- !app_assoc, rev_app_distr. cbn [app rev].
      destruct (IH (a :: post) seen lab (unk ++ [(l, location a)])) as [[H1 ->]|(p1 & x & p2 & l' & -> & H1 & H2 & H3 & ->)]; auto.
      { left. split; auto. now rewrite <- app_assoc. }
      right. exists p1, x, (p2 ++ [a]), l'. rewrite <- app_assoc. repeat split; auto.
      rewrite known_labels_app. unfold known_labels at 2. simpl. rewrite La, Pa. now rewrite app_nil_r.
  - assert (Pa : position_of a = None) by (unfold position_of; now rewrite La).
    replace (kept [a]) with [a] by (unfold kept; simpl; now rewrite Pa).
    replace (placed [a]) with (@nil (nat * call_arg A)) by (unfold placed; simpl; now rewrite Pa).
    replace (known_labels [a]) with (@nil text) by (unfold known_labels; simpl; now rewrite La).
    replace (unknown [a]) with (@nil (text * (nat * nat))) by (unfold unknown; simpl; now rewrite La).
    rewrite !app_nil_r, <- !app_assoc. cbn [app].
    destruct (IH (a :: post) seen lab unk) as [[H1 ->]|(p1 & x & p2 & l' & -> & H1 & H2 & H3 & ->)]; auto.
    right. exists p1, x, (p2 ++ [a]), l'. rewrite <- app_assoc. repeat split; auto.
    rewrite known_labels_app. unfold known_labels at 2. simpl. rewrite La. now rewrite app_nil_r.
Qed.

(** ** Putting the labelled arguments back *)
Lemma insert_at_mid {B} (a : list B) x b : insert_at (length a) x (a ++ b) = Some (a ++ x :: b).
Proof. induction a as [|y a IH]; simpl; [destruct b; reflexivity|]. now rewrite IH. Qed.

Lemma take_position_spec {B} i (l : list (nat * B)) : NoDup (map fst l) ->
  match take_position i l with
  | Some a => In (i, a) l /\ exists l1 l2, l = l1 ++ (i, a) :: l2
  | None => ~ In i (map fst l)
  end.
Proof.
  induction l as [|[p a] l IH]; simpl; intros ND; [tauto|].
  inversion ND as [|? ? NI ND']; subst. destruct (Nat.eqb_spec p i) as [->|N].
  - split; auto. now exists [], l.
  - specialize (IH ND'). destruct (take_position i l).
    + destruct IH as [H (l1 & l2 & ->)]. split; auto. now exists ((p, a) :: l1), l2.
    + tauto.
Qed.
Lemma take_position_later {B} i (l1 l2 : list (nat * B)) p a : p <> i ->
  take_position i (l1 ++ (p, a) :: l2) = take_position i (l1 ++ l2).
Proof.
  intros N. induction l1 as [|[q b] l1 IH]; simpl.
  - replace (p =? i) with false by (symmetry; now apply Nat.eqb_neq). reflexivity.
  - now rewrite IH.
Qed.
Lemma reinsert_ignores {B} count : forall i (l1 l2 : list (nat * B)) p a (args : list B), p < i ->
  reinsert count i (l1 ++ (p, a) :: l2) args = reinsert count i (l1 ++ l2) args.
Proof.
  induction count as [|count IH]; intros i l1 l2 p a args L; [reflexivity|]. cbn [reinsert].
  rewrite take_position_later by lia. destruct (take_position i (l1 ++ l2)); [|now apply IH; lia].
  destruct (insert_at i b args); [|reflexivity]. now apply IH; lia.
Qed.

Lemma reinsert_spec count : forall i (labelled : list (nat * call_arg A)) start rest,
  NoDup (map fst labelled) -> (forall p, In p (map fst labelled) -> i <= p /\ p < i + count) ->
  length start = i -> length rest + length labelled = count ->
  exists finish, reinsert count i labelled (start ++ rest) = Some (start ++ finish)
    /\ Permutation finish (rest ++ map snd labelled)
    /\ (forall p a, In (p, a) labelled -> nth_error (start ++ finish) p = Some a)
    /\ forall q : call_arg A -> bool, (forall a, In a (map snd labelled) -> q a = false) -> filter q finish = filter q rest.
Proof.
  induction count as [|count IH]; intros i lab start rest ND R Ls Lr.
  { destruct rest; [|simpl in Lr; lia]. destruct lab; [|simpl in Lr; lia]. exists [].
    rewrite app_nil_r. simpl. repeat split; auto. intros p a []. }
  cbn [reinsert]. pose proof (take_position_spec i lab ND) as T.
  destruct (take_position i lab) as [a|] eqn:E.
  - destruct T as [_ (l1 & l2 & ->)]. rewrite <- Ls. rewrite insert_at_mid. rewrite Ls.
    rewrite reinsert_ignores by lia.
    rewrite map_app in ND. cbn [map fst] in ND.
    assert (ND' : NoDup (map fst (l1 ++ l2))) by (rewrite map_app; now apply NoDup_remove_1 in ND).
    assert (NI : ~ In i (map fst (l1 ++ l2))) by (rewrite map_app; now apply NoDup_remove_2 in ND).
    rewrite app_length in Lr. simpl in Lr.
    replace (start ++ a :: rest) with ((start ++ [a]) ++ rest) by now rewrite <- app_assoc.
    destruct (IH (S i) (l1 ++ l2) (start ++ [a]) rest) as (f & Ef & P & Pos & Fl); auto.
    + intros p Hp. assert (p <> i) by congruence.
      specialize (R p). rewrite map_app in R, Hp. cbn [map fst] in R.
      assert (In p (map fst l1 ++ i :: map fst l2)) by (apply in_app_iff in Hp; apply in_app_iff; simpl; tauto).
      apply R in H0. lia.
    + rewrite app_length. simpl. lia.
    + rewrite app_length. lia.
    + rewrite Ef. exists (a :: f). rewrite <- app_assoc in *. cbn [app] in *. split; auto. split; [|split].
      * rewrite P. rewrite !map_app. cbn [map snd]. rewrite !app_assoc. apply Permutation_middle.
      * intros p b Hb. apply in_app_iff in Hb as [Hb|[[= <- <-]|Hb]].
        -- apply Pos, in_app_iff. auto.
        -- rewrite <- Ls. apply nth_error_mid.
        -- apply Pos, in_app_iff. auto.
      * intros q Q. simpl. rewrite (Q a).
        -- apply Fl. intros b Hb. apply Q. rewrite map_app in *. apply in_app_iff in Hb. apply in_app_iff. simpl. tauto.
        -- rewrite map_app. apply in_app_iff. right. now left.
  - destruct rest as [|r rest].
    + exfalso. simpl in Lr.
      assert (incl (map fst lab) (seq (S i) count)).
      { intros p Hp. apply in_seq. specialize (R p Hp). assert (p <> i) by congruence. lia. }
      apply NoDup_incl_length in H; auto. rewrite map_length, seq_length in H. lia.
    + replace (start ++ r :: rest) with ((start ++ [r]) ++ rest) by now rewrite <- app_assoc.
      destruct (IH (S i) lab (start ++ [r]) rest) as (f & Ef & P & Pos & Fl); auto.
      * intros p Hp. assert (p <> i) by congruence. specialize (R p Hp). lia.
      * rewrite app_length. simpl. lia.
      * rewrite Ef. exists (r :: f). rewrite <- app_assoc in *. cbn [app] in *. split; auto. split; [|split]; auto.
        -- intros q Q. simpl. rewrite Fl by auto. reflexivity.
Qed.

(** ** The whole function *)
Context (C : consistent fm).

Lemma position_label a p : position_of a = Some p -> exists l, label a = Some l /\ In (l, p) (fields fm).
Proof.
  unfold position_of. destruct (label a) as [l|]; [|discriminate]. intros H. exists l. split; auto.
  apply get_in; auto. apply C.
Qed.
Lemma label_position a l : label a = Some l -> known fm l -> exists p, position_of a = Some p /\ In (l, p) (fields fm).
Proof.
  unfold position_of, known. intros -> H. apply in_map_iff in H as ([k p] & <- & H). simpl. exists p. split; auto.
  apply get_in; auto. apply C.
Qed.
Lemma position_inj l l' p : In (l, p) (fields fm) -> In (l', p) (fields fm) -> l = l'.
Proof.
  destruct C as (_ & ND & _). revert ND. generalize (fields fm). clear.
  induction l0 as [|[k q] f IH]; simpl; [tauto|]. intros ND H1 H2. inversion ND; subst.
  destruct H1 as [H1|H1], H2 as [H2|H2]; [congruence| | |auto]; exfalso.
  - injection H1 as -> ->. apply H3. now apply (in_map snd) in H2.
  - injection H2 as -> ->. apply H3. now apply (in_map snd) in H1.
Qed.

Lemma placed_in args p a : In (p, a) (placed args) <-> In a args /\ position_of a = Some p.
Proof.
  unfold placed. rewrite in_flat_map. split.
  - intros (x & Hx & H). destruct (position_of x) eqn:E; [|destruct H]. destruct H as [[= <- <-]|[]]. auto.
  - intros [H E]. exists a. rewrite E. simpl. auto.
Qed.
Lemma known_labels_in args l : In l (known_labels args) <->
  exists a, In a args /\ label a = Some l /\ position_of a <> None.
Proof.
  unfold known_labels. rewrite in_flat_map. split.
  - intros (x & Hx & H). exists x. destruct (label x) as [k|], (position_of x); simpl in H; try tauto.
    destruct H as [<-|[]]. repeat split; auto. discriminate.
  - intros (a & H & L & P). exists a. rewrite L. destruct (position_of a); [|congruence]. simpl. auto.
Qed.

Lemma placed_nodup args : NoDup (known_labels args) -> NoDup (map fst (placed args)).
Proof.
  induction args as [|a args IH]; intros ND; [constructor|].
  unfold known_labels, placed in *. cbn [flat_map] in *. fold (known_labels args) in *. fold (placed args) in *.
  destruct (position_of a) as [p|] eqn:P.
  - apply position_label in P as L. destruct L as (l & L & Hl). rewrite L in ND. cbn [app] in ND.
    inversion ND as [|? ? NI ND']; subst. cbn [app map fst]. constructor; auto.
    rewrite in_map_iff. intros ([q b] & Eq & H). simpl in Eq. subst q. apply placed_in in H as [H Pb].
    apply position_label in Pb as Lb. destruct Lb as (l' & Lb & Hl'). 
    assert (l' = l) by (eapply position_inj; eauto). subst.
    apply NI, known_labels_in. exists b. repeat split; auto. congruence.
  - destruct (label a); simpl in ND; auto.
Qed.

Lemma kept_placed args : Permutation (kept args ++ map snd (placed args)) args.
Proof.
  induction args as [|a args IH]; [constructor|]. unfold kept, placed in *. cbn [filter flat_map].
  destruct (position_of a); cbn [app map].
  - rewrite <- Permutation_middle. now constructor.
  - now constructor.
Qed.

Lemma positional_spec args : forall seen,
  match positional_after_labelled seen args with
  | Some loc => exists b a c, args = b ++ a :: c /\ label a = None /\ implicit a = None /\ location a = loc
      /\ (seen = true \/ exists x, In x b /\ label x <> None)
  | None => forall b a c, args = b ++ a :: c -> label a = None -> implicit a = None ->
      seen = false /\ forall x, In x b -> label x = None
  end.
Proof.
  induction args as [|a args IH]; intros seen; simpl.
  { intros [|]; discriminate. }
  destruct (label a) as [l|] eqn:L.
  - specialize (IH true). destruct (positional_after_labelled true args).
    + destruct IH as (b & x & c & -> & H1 & H2 & H3 & _). exists (a :: b), x, c. repeat split; auto.
      right. exists a. simpl. split; auto. congruence.
    + intros [|y b] x c E H1 H2; simpl in E; injection E as <- E; [congruence|].
      destruct (IH b x c E H1 H2). discriminate.
  - destruct (seen && negb (is_implicit a)) eqn:S.
    + apply andb_true_iff in S as [-> S]. exists [], a, args. repeat split; auto.
      unfold is_implicit in S. destruct (implicit a); [discriminate|reflexivity].
    + specialize (IH seen). destruct (positional_after_labelled seen args).
      * destruct IH as (b & x & c & -> & H1 & H2 & H3 & H4). exists (a :: b), x, c. repeat split; auto.
        destruct H4 as [H4|(y & Hy & Hl)]; auto. right. exists y. simpl. auto.
      * intros [|y b] x c E H1 H2; simpl in E; injection E as <- E.
        -- unfold is_implicit in S. rewrite H2 in S. simpl in S. rewrite andb_true_r in S. split; auto. intros x [].
        -- destruct (IH b x c E H1 H2) as [-> H]. split; auto. intros z [<-|Hz]; auto.
Qed.

Lemma positional_none args : positional_after_labelled false args = None <-> forall a, ~ misplaced args a.
Proof.
  pose proof (positional_spec args false) as P. destruct (positional_after_labelled false args).
  - split; [discriminate|]. intros H. destruct P as (b & a & c & -> & H1 & H2 & _ & [|(x & Hx & Lx)]); [discriminate|].
    destruct (H a). exists b, c. repeat split; auto. eauto.
  - split; auto. intros _ a (b & c & -> & H1 & H2 & x & Hx & Lx). destruct (P b a c eq_refl H1 H2) as [_ H].
    apply Lx. auto.
Qed.

Lemma unknown_nil args : unknown args = [] <-> forall a l, In a args -> label a = Some l -> known fm l.
Proof.
  induction args as [|a args IH]; unfold unknown in *; cbn [flat_map].
  { split; auto. intros _ a l []. }
  split.
  - intros H. apply app_eq_nil in H as [H1 H2]. rewrite IH in H2. intros x l [<-|Hx] Lx; [|eauto].
    rewrite Lx in H1. destruct (position_of a) eqn:P; [|discriminate].
    apply position_label in P as (l' & L' & Hl). assert (l' = l) by congruence. subst.
    apply (in_map fst) in Hl. exact Hl.
  - intros H. assert (H' : forall a l, In a args -> label a = Some l -> known fm l) by (intros; eapply H; eauto; now right).
    rewrite (proj2 IH H'), app_nil_r. destruct (label a) as [l|] eqn:L; [|reflexivity].
    destruct (label_position a l L) as (p & -> & _); [|reflexivity]. eapply H; eauto. now left.
Qed.

(** A known label given twice. *)
Definition known_repeated args : Prop := exists l, known fm l /\ repeated args l.
Lemma repeated_nodup args : NoDup (known_labels args) -> ~ known_repeated args.
Proof.
  intros ND (l & K & a & b & c & x & y & -> & Lx & Ly).
  destruct (label_position x l Lx K) as (p & Px & _). destruct (label_position y l Ly K) as (q & Py & _).
  rewrite !known_labels_app in ND. unfold known_labels at 2 in ND. cbn [flat_map] in ND.
  rewrite Lx, Px in ND. fold (known_labels (b ++ y :: c)) in ND. cbn [app] in ND.
  apply NoDup_remove_2 in ND. apply ND, in_app_iff. right. apply known_labels_in.
  exists y. repeat split; auto; [apply in_app_iff; right; now left|congruence].
Qed.

Theorem reorder_spec args :
  match reorder fm args with
  | Fine result => acceptable fm args /\ arranged fm args result
  | Panicked => False
  | Failed (IncorrectArity m e g) =>
      length args <> arity fm /\ m = missing_labels fm args /\ e = arity fm /\ g = length args
  | Failed (PositionalArgumentAfterLabelled loc) =>
      length args = arity fm /\ exists a, misplaced args a /\ location a = loc
  | Failed (DuplicateArgument loc l) =>
      length args = arity fm /\ (forall a, ~ misplaced args a)
      /\ known fm l /\ exists a b c x y, args = a ++ x :: b ++ y :: c
           /\ label x = Some l /\ label y = Some l /\ location x = loc
  | Failed (UnknownLabels valid unk supplied) =>
      length args = arity fm /\ (forall a, ~ misplaced args a) /\ ~ known_repeated args
      /\ valid = map fst (fields fm) /\ unk = rev (unknown args) /\ unk <> [] /\ supplied = known_labels args
  | Failed _ => False
  end.
Proof.
  unfold reorder. destruct (Nat.eqb_spec (arity fm) (length args)) as [La|La]; cbn [negb].
  2:{ repeat split; auto. }
  pose proof (positional_spec args false) as P.
  destruct (positional_after_labelled false args) as [loc|] eqn:Pos.
  { split; auto. destruct P as (b & a & c & -> & H1 & H2 & H3 & [|(x & Hx & Lx)]); [discriminate|].
    exists a. split; auto. exists b, c. repeat split; auto. eauto. }
  clear P. pose proof (proj1 (positional_none args) Pos) as Pos'. clear Pos. rename Pos' into Pos.
  destruct (collect_spec args [] [] [] [] (NoDup_nil _)) as [[ND E]|(p1 & x & p2 & l & -> & Lx & Px & Hl & E)];
    rewrite app_nil_r in *; rewrite E.
  2:{ split; auto. split; auto. 
      assert (K : known fm l).
      { destruct (position_of x) eqn:Q; [|congruence]. apply position_label in Q as (l' & L' & Hl').
        assert (l' = l) by congruence. subst. now apply (in_map fst) in Hl'. }
      split; auto. apply known_labels_in in Hl as (y & Hy & Ly & _).
      apply in_split in Hy as (b & c & ->). exists p1, b, c, x, y. auto. }
  cbn [labelled_arguments arguments unknown_labels seen_labels]. rewrite app_nil_r in *.
  pose proof (kept_placed args) as KP.
  assert (Len : length (kept args) + length (placed args) = length args).
  { apply Permutation_length in KP. rewrite app_length, map_length in KP. exact KP. }
  destruct (reinsert_spec (length args) 0 (placed args) [] (kept args)) as (r & R & Pr & Pp & Fl); auto.
  { now apply placed_nodup. }
  { intros p Hp. apply in_map_iff in Hp as ([q a] & <- & H). apply placed_in in H as [_ H].
    apply position_label in H as (l & _ & H). destruct C as (_ & _ & B). apply B in H. simpl. lia. }
  cbn [app] in R. rewrite ?app_nil_r. rewrite R. clear R E. cbn [app].
  destruct (rev (unknown args)) as [|u us] eqn:U.
  - assert (U' : unknown args = []) by (rewrite <- (rev_involutive (unknown args)), U; reflexivity). clear U.
    pose proof (proj1 (unknown_nil args) U') as K. split.
    + split; auto. split; auto. split; auto. intros l Rp. apply (repeated_nodup args ND). exists l. split; auto.
      destruct Rp as (a & b & c & x & y & -> & Lx & _). eapply K; eauto. apply in_app_iff. right. now left.
    + split; [now rewrite Pr|]. split.
      * intros a l p Ha Hl Hp. apply Pp, placed_in. split; auto.
        destruct (label_position a l Hl) as (q & Q & Hq); [eapply K; eauto|].
        rewrite Q. f_equal. destruct C as (N1 & _ & _). apply (get_in _ _ N1) in Hq, Hp. congruence.
      * rewrite Fl.
        -- clear - K C. unfold kept. induction args as [|a args IH]; [reflexivity|]. cbn [filter].
           rewrite <- IH by (intros; eapply K; eauto; now right).
           destruct (position_of a) eqn:Q; [|reflexivity].
           apply position_label in Q as (l & L & _). unfold is_labelled at 2. rewrite L. reflexivity.
        -- intros a Ha. apply in_map_iff in Ha as ([p b] & <- & H). apply placed_in in H as [_ H].
           apply position_label in H as (l & L & _). simpl. unfold is_labelled. now rewrite L.
  - repeat split; auto; [now apply repeated_nodup|discriminate].
Qed.

Theorem reorder_fine args : (exists result, reorder fm args = Fine result) <-> acceptable fm args.
Proof.
  pose proof (reorder_spec args) as S. split.
  - intros [r E]. rewrite E in S. apply S.
  - intros (La & NM & K & NR). destruct (reorder fm args) as [r|e|]; [eauto| |contradiction]. exfalso.
    destruct e as [| |loc lb| | |]; try contradiction.
    + tauto.
    + destruct S as [_ (a & M & _)]. now apply (NM a).
    + destruct S as (_ & _ & _ & a & b & c & x & y & -> & Lx & Ly & _). apply (NR lb). exists a, b, c, x, y. auto.
    + destruct S as (_ & _ & _ & _ & -> & NE & _). apply NE. now rewrite (proj2 (unknown_nil args) K).
Qed.

(** The arrangement is unique. *)
Theorem arranged_unique args r1 r2 : acceptable fm args -> arranged fm args r1 -> arranged fm args r2 -> r1 = r2.
Proof.
  intros (La & _ & K & NR) (P1 & Q1 & F1) (P2 & Q2 & F2).
  assert (Len : length r1 = length r2) by now rewrite (Permutation_length P1), (Permutation_length P2).
  assert (M : forall p a b, nth_error r1 p = Some a -> nth_error r2 p = Some b ->
    is_labelled a = true \/ is_labelled b = true -> a = b).
  { intros p a b Ha Hb [L|L]; unfold is_labelled in L.
    - destruct (label a) as [l|] eqn:E; [|discriminate].
      assert (Ia : In a args) by (eapply Permutation_in; [exact P1|]; eapply nth_error_In; eauto).
      destruct (label_position a l E (K a l Ia E)) as (q & _ & Hq).
      pose proof (Q1 a l q Ia E Hq) as X1. pose proof (Q2 a l q Ia E Hq) as X2.
      assert (p = q); [|congruence].
      (* a occurs once: its label does *)
      destruct (Nat.eq_dec p q) as [|N]; auto. exfalso.
      assert (R : exists x y z, r1 = x ++ a :: y ++ a :: z).
      { clear - Ha X1 N. assert (G : forall p q, p < q -> nth_error r1 p = Some a -> nth_error r1 q = Some a ->
          exists x y z, r1 = x ++ a :: y ++ a :: z).
        { clear. intros p q L Ha Hb. apply nth_error_split in Ha as (x & r & -> & <-).
          rewrite nth_error_app2 in Hb by lia. replace (q - length x) with (S (q - length x - 1)) in Hb by lia.
          simpl in Hb. apply nth_error_split in Hb as (y & z & -> & _). eauto. }
        destruct (lt_dec p q); [apply (G p q); auto|apply (G q p); auto; lia]. }
      destruct R as (x & y & z & ->).
      assert (P3 : Permutation args (a :: a :: x ++ y ++ z)).
      { rewrite <- P1. rewrite <- Permutation_middle. constructor.
        rewrite (Permutation_app_comm x). rewrite <- app_assoc. cbn [app]. rewrite <- Permutation_middle. constructor.
        rewrite (Permutation_app_comm x). now rewrite <- app_assoc. }
      assert (In a args) by (rewrite P3; now left). apply in_split in H as (b1 & b2 & ->).
      rewrite <- Permutation_middle in P3. apply Permutation_cons_inv in P3.
      assert (In a (b1 ++ b2)) by (rewrite P3; now left). apply in_app_iff in H as [H|H].
      + apply in_split in H as (c1 & c2 & ->). apply (NR l). exists c1, c2, b2, a, a.
        rewrite <- app_assoc. auto.
      + apply in_split in H as (c1 & c2 & ->). apply (NR l). exists b1, c1, c2, a, a. auto.
    - destruct (label b) as [l|] eqn:E; [|discriminate].
      assert (Ib : In b args) by (eapply Permutation_in; [exact P2|]; eapply nth_error_In; eauto).
      destruct (label_position b l E (K b l Ib E)) as (q & _ & Hq).
      pose proof (Q1 b l q Ib E Hq) as X1. pose proof (Q2 b l q Ib E Hq) as X2.
      destruct (Nat.eq_dec p q) as [|N]; [congruence|]. exfalso.
      assert (R : exists x y z, r2 = x ++ b :: y ++ b :: z).
      { clear - Hb X2 N. assert (G : forall p q, p < q -> nth_error r2 p = Some b -> nth_error r2 q = Some b ->
          exists x y z, r2 = x ++ b :: y ++ b :: z).
        { clear. intros p q L Ha Hb. apply nth_error_split in Ha as (x & r & -> & <-).
          rewrite nth_error_app2 in Hb by lia. replace (q - length x) with (S (q - length x - 1)) in Hb by lia.
          simpl in Hb. apply nth_error_split in Hb as (y & z & -> & _). eauto. }
        destruct (lt_dec p q); [apply (G p q); auto|apply (G q p); auto; lia]. }
      destruct R as (x & y & z & ->).
      assert (P3 : Permutation args (b :: b :: x ++ y ++ z)).
      { rewrite <- P2. rewrite <- Permutation_middle. constructor.
        rewrite (Permutation_app_comm x). rewrite <- app_assoc. cbn [app]. rewrite <- Permutation_middle. constructor.
        rewrite (Permutation_app_comm x). now rewrite <- app_assoc. }
      assert (In b args) by (rewrite P3; now left). apply in_split in H as (b1 & b2 & ->).
      rewrite <- Permutation_middle in P3. apply Permutation_cons_inv in P3.
      assert (In b (b1 ++ b2)) by (rewrite P3; now left). apply in_app_iff in H as [H|H].
      + apply in_split in H as (c1 & c2 & ->). apply (NR l). exists c1, c2, b2, b, b.
        rewrite <- app_assoc. auto.
      + apply in_split in H as (c1 & c2 & ->). apply (NR l). exists b1, c1, c2, b, b. auto. }
  assert (F : filter (fun a => negb (is_labelled a)) r1 = filter (fun a => negb (is_labelled a)) r2) by congruence.
  clear - Len M F. revert r2 Len M F. induction r1 as [|a r1 IH]; intros [|b r2] Len M F; try discriminate; auto.
  assert (M' : forall p a b, nth_error r1 p = Some a -> nth_error r2 p = Some b ->
    is_labelled a = true \/ is_labelled b = true -> a = b) by (intros p x y; apply (M (S p))).
  simpl in Len, F. pose proof (M 0 a b eq_refl eq_refl) as M0.
  destruct (is_labelled a) eqn:A1, (is_labelled b) eqn:B1; cbn [negb] in F.
  - rewrite M0 by auto. f_equal. apply IH; auto.
  - specialize (M0 (or_introl eq_refl)). subst. congruence.
  - specialize (M0 (or_intror eq_refl)). subst. congruence.
  - injection F as -> F. f_equal. apply IH; auto.
Qed.
End Reorder.
