(** Proofs about unlocking packages, and about removing what is no longer required. *)
From Coq Require Import NArith Arith Bool List Lia.
From Verif Require Import Text TextProofs Version ResolveSpec ResolveProofs Locked LockedSpec LockedProofs.
Import ListNotations.
Local Open Scope nat_scope.
Local Open Scope list_scope.

Lemma contains_key_iff {A} k (m : list (text * A)) : Resolve.contains_key k m = true <-> In k (map fst m).
Proof. apply contains_key_spec. Qed.

Lemma recorded_key m n : recorded m n <-> In n (map fst (manifest_requirements m)).
Proof.
  unfold recorded. rewrite in_map_iff. split.
  - intros [r I]. now exists (n, r).
  - intros ((j & r) & <- & I). now exists r.
Qed.

Lemma find_deps_iff p l m d : In d (find_deps_to_unlock p l m) <->
  In d (package_requirements p) /\ In d (map fst l) /\ ~ recorded m d
  /\ forall q, In q (packages m) -> In d (package_requirements q) -> ~ In (name q) (map fst l).
Proof.
  unfold find_deps_to_unlock. rewrite filter_In, !andb_true_iff, forallb_forall, contains_key_iff, recorded_key, negb_true_iff.
  rewrite <- not_true_iff_false, contains_key_iff.
  assert (E : (forall x, In x (packages m) -> negb (contains_key (name x) l) || negb (has d (package_requirements x)) = true)
    <-> forall q, In q (packages m) -> In d (package_requirements q) -> ~ In (name q) (map fst l)).
  { split; intros H q I.
    - intros J K. specialize (H q I). apply has_in in J. apply contains_key_iff in K. rewrite J, K in H. discriminate.
    - apply orb_true_iff. rewrite !negb_true_iff. destruct (contains_key (name q) l) eqn:C; auto. right.
      destruct (has d (package_requirements q)) eqn:D; auto. apply has_in in D. apply contains_key_iff in C.
      destruct (H q I D C). }
  rewrite E. tauto.
Qed.

Section Unlock.
Context (m : manifest) (locks : list (text * version)) (asked : list text).
Notation U := (unlocked m locks asked).

(** What is sound. *)
Definition sound (l : list (text * version)) (todo : list text) : Prop :=
  (forall n v, In (n, v) l -> In (n, v) locks)
  /\ (forall n v, In (n, v) locks -> In (n, v) l \/ U n)
  /\ (forall n, In n todo -> In n (map fst locks) -> U n).
(** What is still to do. *)
Definition pending (l : list (text * version)) (todo : list text) : Prop :=
  (forall n, In n asked -> In n (map fst l) -> In n todo)
  /\ (forall p d, In p (packages m) -> In (name p) (map fst locks) -> ~ In (name p) (map fst l) ->
        In d (package_requirements p) -> In d (map fst l) -> ~ recorded m d ->
        (forall q, In q (packages m) -> In d (package_requirements q) -> ~ In (name q) (map fst l)) -> In d todo).

Lemma key_in {A} (l : list (text * A)) n : In n (map fst l) -> exists a, In (n, a) l.
Proof. intros I. apply in_map_iff in I as ((j & a) & <- & I). eauto. Qed.
Lemma in_key {A} (l : list (text * A)) n a : In (n, a) l -> In n (map fst l).
Proof. intros I. apply in_map_iff. now exists (n, a). Qed.

Lemma sound_keys l todo : sound l todo -> forall n, In n (map fst l) -> In n (map fst locks).
Proof. intros (A & _) n I. apply key_in in I as (v & I). apply A in I. eapply in_key; eauto. Qed.

Lemma sound_skip l n todo : sound l (n :: todo) -> sound l todo.
Proof. intros (A & B & C). split; auto. split; auto. intros j I. apply C. now right. Qed.

Lemma sound_remove l n todo : sound l (n :: todo) -> sound (remove n l) todo.
Proof.
  intros (A & B & C). split; [|split].
  - intros j v I. apply in_remove in I as [I _]. auto.
  - intros j v I. destruct (text_dec j n) as [->|N].
    + right. apply C; [now left|eapply in_key; eauto].
    + destruct (B j v I) as [J|J]; auto. left. apply in_remove. auto.
  - intros j I. apply C. now right.
Qed.

Lemma sound_push l n todo p : sound l (n :: todo) -> In n (map fst l) -> In p (packages m) -> name p = n ->
  sound (remove n l) (rev (find_deps_to_unlock p (remove n l) m) ++ todo).
Proof.
  intros S I J E. pose proof (sound_remove _ _ _ S) as S'. split; [apply S'|]. split; [apply S'|].
  intros d D K. apply in_app_iff in D as [D|D]; [|now apply S'].
  rewrite <- in_rev in D. apply find_deps_iff in D as (D1 & D2 & D3 & D4).
  apply unlocked_orphan with p; auto.
  - rewrite E. destruct S as (A & B & C). apply C; [now left|]. apply (sound_keys l (n :: todo)); auto. now split.
  - intros q Q Dq Kq. apply key_in in Kq as (v & Kq). destruct S' as (_ & B & _).
    destruct (B _ _ Kq) as [X|X]; auto. exfalso. apply (D4 q Q Dq). eapply in_key; eauto.
Qed.

Definition weight (l : list (text * version)) : nat :=
  list_sum (map (fun p => if contains_key (name p) l then length (package_requirements p) else 0) (packages m)).

Lemma list_sum_cons x l : list_sum (x :: l) = x + list_sum l.
Proof. reflexivity. Qed.

Lemma weight_remove_le (l : list (text * version)) n ps :
  list_sum (map (fun p => if contains_key (name p) (remove n l) then length (package_requirements p) else 0) ps)
  <= list_sum (map (fun p => if contains_key (name p) l then length (package_requirements p) else 0) ps).
Proof.
  induction ps as [|q ps IH]; auto. cbn [map]. rewrite !list_sum_cons.
  destruct (contains_key (name q) (remove n l)) eqn:C; [|destruct (contains_key (name q) l); lia].
  apply contains_key_iff, in_remove_key in C as [C _]. apply contains_key_iff in C. rewrite C. lia.
Qed.

Lemma weight_remove l n p : In n (map fst l) -> In p (packages m) -> name p = n ->
  weight (remove n l) + length (package_requirements p) <= weight l.
Proof.
  intros I J E. unfold weight. apply in_split in J as (a & b & ->). rewrite !map_app, !list_sum_app. cbn [map]. rewrite !list_sum_cons.
  pose proof (weight_remove_le l n a). pose proof (weight_remove_le l n b). rewrite E.
  apply contains_key_iff in I. rewrite I.
  assert (contains_key n (remove n l) = false) as ->.
  { destruct (contains_key n (remove n l)) eqn:C; auto. apply contains_key_iff, in_remove_key in C. tauto. }
  lia.
Qed.

Lemma unlock_all_spec fuel : forall l todo, length todo + weight l < fuel -> sound l todo ->
  exists l', unlock_all fuel l m todo = Some l' /\ sound l' []
    /\ (NoDup (map name (packages m)) -> pending l todo -> pending l' []).
Proof.
  induction fuel as [|fuel IH]; intros l todo Lt S; [lia|]. cbn [unlock_all].
  destruct todo as [|n todo]; [exists l; auto|]. cbn [length] in Lt.
  destruct (contains_key n l) eqn:C.
  - apply contains_key_iff in C. destruct (find (fun p => text_eqb (name p) n) (packages m)) as [p|] eqn:F.
    + apply find_some in F as [I E]. apply text_eqb_eq in E.
      destruct (IH (remove n l) (rev (find_deps_to_unlock p (remove n l) m) ++ todo)) as (l' & U1 & U2 & U3).
      * pose proof (weight_remove l n p C I E). rewrite app_length, rev_length.
        assert (length (find_deps_to_unlock p (remove n l) m) <= length (package_requirements p)).
        { unfold find_deps_to_unlock. generalize (package_requirements p). intros ds. induction ds; cbn; auto.
          destruct (_ && _); cbn; lia. }
        lia.
      * now apply sound_push.
      * exists l'. split; auto. split; auto. intros ND [P1 P2]. apply U3; auto. split.
        -- intros j J K. apply in_remove_key in K as [K N]. apply in_app_iff. right.
           destruct (P1 j J K) as [X|X]; [congruence|auto].
        -- intros q d Q Kq Nq Dq Kd Rd All. apply in_app_iff. rewrite <- in_rev.
           destruct (text_dec (name q) n) as [Eq|Nn].
           ++ left. assert (q = p) as ->.
              { apply (listed_unique m); [now apply in_listed|now apply in_listed|congruence]. }
              apply find_deps_iff. auto.
           ++ apply in_remove_key in Kd as [Kd Nd].
              assert (Nql : ~ In (name q) (map fst l)).
              { intros X. apply Nq, in_remove_key. auto. }
              destruct (in_dec text_dec d (package_requirements p)) as [Dp|Dp].
              ** left. apply find_deps_iff. split; auto. split; [apply in_remove_key; auto|]. auto.
              ** right. destruct (P2 q d) as [X|X]; auto; [|congruence].
                 intros r R Dr Kr. apply (All r R Dr). apply in_remove_key. split; auto. intros Er.
                 apply Dp. assert (r = p) as <-; auto.
                 apply (listed_unique m); [now apply in_listed|now apply in_listed|congruence].
    + destruct (IH (remove n l) todo) as (l' & U1 & U2 & U3).
      * pose proof (weight_remove_le l n (packages m)). unfold weight in *. lia.
      * now apply sound_remove.
      * exists l'. split; auto. split; auto. intros ND [P1 P2]. apply U3; auto.
        assert (No : forall q, In q (packages m) -> name q <> n).
        { intros q Q E. pose proof (find_none _ _ F q Q) as X. cbn in X. rewrite E, text_eqb_refl in X. discriminate. }
        split.
        -- intros j J K. apply in_remove_key in K as [K N]. destruct (P1 j J K) as [X|X]; [congruence|auto].
        -- intros q d Q Kq Nq Dq Kd Rd All. apply in_remove_key in Kd as [Kd Nd].
           destruct (P2 q d) as [X|X]; auto; [| |congruence].
           ++ intros X. apply Nq, in_remove_key. split; auto.
           ++ intros r R Dr Kr. apply (All r R Dr). apply in_remove_key. split; auto.
  - destruct (IH l todo) as (l' & U1 & U2 & U3); [lia|now apply sound_skip in S|].
    exists l'. split; auto. split; auto. intros ND [P1 P2]. apply U3; auto.
    assert (Nn : ~ In n (map fst l)) by (intros X; apply contains_key_iff in X; congruence).
    split.
    + intros j J K. destruct (P1 j J K) as [X|X]; auto. congruence.
    + intros q d Q Kq Nq Dq Kd Rd All. destruct (P2 q d) as [X|X]; auto. congruence.
Qed.

Lemma weight_le : weight locks <= list_sum (map (fun p => length (package_requirements p)) (packages m)).
Proof.
  unfold weight. generalize (packages m). intros ps. induction ps as [|p ps IH]; auto. cbn [map]. rewrite !list_sum_cons.
  destruct (contains_key (name p) locks); lia.
Qed.

Lemma unlock_packages_spec : exists l, unlock_packages locks asked (Some m) = Some l
  /\ (forall n v, In (n, v) l -> In (n, v) locks) /\ (forall n v, In (n, v) locks -> In (n, v) l \/ U n)
  /\ (NoDup (map name (packages m)) -> forall n v, In (n, v) l -> ~ U n).
Proof.
  unfold unlock_packages. destruct (unlock_all_spec (unlock_fuel asked m) locks (rev asked)) as (l & E & S & P).
  - unfold unlock_fuel. rewrite rev_length. pose proof weight_le. lia.
  - split; auto. split; auto. intros n I K. rewrite <- in_rev in I. now constructor.
  - exists l. split; auto. split; [apply S|]. split; [apply S|]. intros ND n v I Un.
    destruct P as [P1 P2]; auto.
    + split; [|intros p d _ A B; now destruct B]. intros j J _. now rewrite <- in_rev.
    + apply in_key in I. revert I. clear v. induction Un as [n I K|p n Up IHp Ip In_ Kn Rn Q IHq].
      * intros J. destruct (P1 n I J).
      * intros J. destruct (P2 p n Ip) as []; auto.
        -- clear - Up. inversion Up; auto.
        -- intros q Qi Dq Kq. destruct (in_dec text_dec (name q) (map fst locks)) as [X|X].
           ++ now apply (IHq q Qi Dq X).
           ++ apply X. now apply (sound_keys l []).
Qed.
End Unlock.

Lemma unlock_without (l : list (text * version)) : forall asked n v,
  In (n, v) (fold_left (fun l n => remove n l) asked l) <-> In (n, v) l /\ ~ In n asked.
Proof.
  intros asked. revert l. induction asked as [|a asked IH]; intros l n v; cbn; [tauto|].
  rewrite IH, in_remove. intuition.
Qed.

(** ** Locked packages of a configuration *)
Lemma both_dec c : (exists n, In n (map fst (dependencies c)) /\ In n (map fst (dev_dependencies c)))
  \/ ~ exists n, In n (map fst (dependencies c)) /\ In n (map fst (dev_dependencies c)).
Proof.
  induction (map fst (dependencies c)) as [|n l IH].
  - right. now intros (n & [] & _).
  - destruct (in_dec text_dec n (map fst (dev_dependencies c))) as [I|I].
    + left. exists n. split; auto. now left.
    + destruct IH as [(j & J & K)|N].
      * left. exists j. split; auto. now right.
      * right. intros (j & [<-|J] & K); [auto|]. eauto.
Qed.

Lemma direct_spec c : tables c ->
  match all_direct_dependencies c with
  | inl d => is_map d /\ (forall n r, In (n, r) d <-> declared c n r)
      /\ ~ exists n, In n (map fst (dependencies c)) /\ In n (map fst (dev_dependencies c))
  | inr n => In n (map fst (dependencies c)) /\ In n (map fst (dev_dependencies c))
  end.
Proof.
  intros [T1 T2]. unfold all_direct_dependencies.
  assert (M0 : is_map (@nil (text * requirement))) by constructor.
  pose proof (add_direct_spec (dependencies c ++ dev_dependencies c) [] M0) as A.
  destruct (add_direct [] (dependencies c ++ dev_dependencies c)) as [d|n].
  - destruct A as (A & B & D & _). split; auto. split.
    + intros n r. rewrite B, in_app_iff. unfold declared. cbn. tauto.
    + intros (n & I & J). rewrite map_app in D. clear - D I J.
      induction (map fst (dependencies c)) as [|x l IH]; [destruct I|]. cbn in D.
      inversion D as [|? ? N D']; subst. destruct I as [->|I]; auto. apply N, in_app_iff. auto.
  - destruct A as (a & r & b & E & [[]|I]).
    assert (Ea : exists a', a = dependencies c ++ a' /\ dev_dependencies c = a' ++ (n, r) :: b).
    { revert a E I. generalize (dev_dependencies c). revert T1. generalize (dependencies c).
      intros l. induction l as [|e l IH]; intros T1 l2 a E I.
      - cbn in E. exists a. auto.
      - destruct a as [|e' a]; [destruct I|]. cbn in E. injection E as E1 E2. subst e'.
        cbn in T1. inversion T1 as [|? ? N T1']; subst.
        cbn in I. destruct I as [I|I].
        + assert (exists a', a = l ++ a' /\ l2 = a' ++ (n, r) :: b) as (a' & -> & ->); [|exists a'; auto].
          subst n. clear - E2 N. revert a E2. induction l as [|f l IHl]; intros a E2.
          * exists a. auto.
          * destruct a as [|g a]; cbn in E2; injection E2 as F1 F2.
            -- subst f. destruct N. now left.
            -- subst g. destruct (IHl (fun x => N (or_intror x)) a F2) as (a' & -> & ->). exists a'. auto.
        + destruct (IH T1' l2 a E2 I) as (a' & -> & ->). exists a'. auto. }
    destruct Ea as (a' & -> & E'). split; [|rewrite E', map_app, in_app_iff; right; now left].
    rewrite map_app, in_app_iff in I. destruct I as [I|I]; auto. exfalso.
    rewrite E', map_app in T2. apply NoDup_remove_2 in T2. apply T2, in_app_iff. auto.
Qed.

Lemma needed_same m (R R' : text -> Prop) : (forall n, R n <-> R' n) -> forall n, needed m R n <-> needed m R' n.
Proof.
  intros E n. split; induction 1; try (constructor; now apply E); eapply needed_by; eauto.
Qed.

Lemma locked_spec stack c m : tables c -> is_map (manifest_requirements m) ->
  match locked stack c (Some m) with
  | Locks l => is_map l
      /\ (forall n v, In (n, v) l <-> exists p, listed m p /\ name p = n /\ at_version p = v
            /\ needed m (unchanged c m) n /\ ((exists r, declared c n r) -> recorded m n))
      /\ (~ exists n, needed m (unchanged c m) n /\ requires m n n)
      /\ ~ exists n, In n (map fst (dependencies c)) /\ In n (map fst (dev_dependencies c))
  | Duplicate n => In n (map fst (dependencies c)) /\ In n (map fst (dev_dependencies c))
  | Overflow => (~ exists n, In n (map fst (dependencies c)) /\ In n (map fst (dev_dependencies c)))
      /\ (length (packages m) < stack -> exists n, needed m (unchanged c m) n /\ requires m n n)
  end.
Proof.
  intros T M. unfold locked. pose proof (direct_spec c T) as D. destruct (all_direct_dependencies c) as [d|n]; auto.
  destruct D as (D1 & D2 & D3). pose proof (fresh_and_locked_spec stack d m M) as F.
  assert (R : forall n, kept_requirement d m n <-> unchanged c m n).
  { intros n. unfold kept_requirement, unchanged. split; intros (r & r' & I & H); exists r, r'; split; auto;
      now apply D2. }
  pose proof (needed_same m _ _ R) as N.
  destruct (fresh_and_locked stack d m) as [l|].
  - destruct F as (F1 & F2 & F3). split; auto. split; [|split; auto].
    + assert (K : forall n, In n (map fst d) <-> exists r, declared c n r).
      { intros n. split.
        - intros I. apply key_in in I as (r & I). exists r. now apply D2.
        - intros [r I]. apply D2 in I. eapply in_key; eauto. }
      assert (RD : forall n, recorded m n \/ ~ recorded m n).
      { intros n. rewrite recorded_key. destruct (in_dec text_dec n (map fst (manifest_requirements m))); auto. }
      intros n v. rewrite F2. split; intros (p & A & B & C & E & G); exists p; (split; [auto|]); (split; [auto|]); (split; [auto|]);
        rewrite N in *; (split; [auto|]); rewrite K in *; destruct (RD n); tauto.
    + intros (n & A & B). apply F3. exists n. rewrite N. auto.
  - split; auto. intros Lt. destruct (F Lt) as (n & A & B). exists n. rewrite <- N. auto.
Qed.

(** ** Removing requirements *)
Lemma remove_extra_spec stack c m : tables c -> is_map (manifest_requirements m) ->
  match remove_extra_requirements stack c m with
  | inl (Some m') =>
      (forall n r, In (n, r) (manifest_requirements m') <-> In (n, r) (manifest_requirements m) /\ exists s, declared c n s)
      /\ (forall p, In p (packages m') <-> In p (packages m) /\ needed m (unchanged c m) (name p)
            /\ ((exists r, declared c (name p) r) -> recorded m (name p)))
      /\ exists keep, packages m' = filter keep (packages m)
  | inl None => length (packages m) < stack -> exists n, needed m (unchanged c m) n /\ requires m n n
  | inr n => In n (map fst (dependencies c)) /\ In n (map fst (dev_dependencies c))
  end.
Proof.
  intros T M. unfold remove_extra_requirements. set (is_extra := is_extra_requirement c). set (m1 := retained c m).
  assert (X : forall n, is_extra n = false <-> exists r, declared c n r).
  { intros n. unfold is_extra, is_extra_requirement, declared. rewrite andb_false_iff, !negb_false_iff, !contains_key_iff. split.
    - intros [I|I]; apply key_in in I as (r & I); eauto.
    - intros [r [I|I]]; apply in_key in I; auto. }
  assert (R1 : forall n r, In (n, r) (manifest_requirements m1) <-> In (n, r) (manifest_requirements m) /\ exists s, declared c n s).
  { intros n r. cbn [m1 retained manifest_requirements]. fold is_extra. rewrite filter_In, negb_true_iff, X. tauto. }
  assert (M1 : is_map (manifest_requirements m1)).
  { cbn [m1 retained manifest_requirements]. fold is_extra. clear - M. unfold is_map in *. induction (manifest_requirements m) as [|[n r] l IH]; [constructor|].
    cbn in *. inversion M as [|? ? N M']; subst. destruct (negb (is_extra n)); auto. cbn. constructor; auto.
    intros I. apply N. apply in_map_iff in I as ((j & s) & <- & I). apply filter_In in I as [I _]. eapply in_key; eauto. }
  assert (Un : forall n, unchanged c m1 n <-> unchanged c m n).
  { intros n. unfold unchanged. split; intros (r & r' & A & B & C); exists r, r'; split; auto; split; auto.
    - now apply R1 in B.
    - apply R1. split; eauto. }
  assert (Ls : forall p, listed m1 p <-> listed m p) by (intros; reflexivity).
  assert (Ne : forall n, needed m1 (unchanged c m1) n <-> needed m (unchanged c m) n).
  { intros n. split; induction 1; try (constructor; now apply Un); eapply needed_by; eauto. }
  assert (Rq : forall a b, requires m1 a b <-> requires m a b).
  { intros a b. split; induction 1; try (now constructor); econstructor 2; eauto. }
  pose proof (locked_spec stack c m1 T M1) as Lk. destruct (locked stack c (Some m1)) as [l|n|]; auto.
  - destruct Lk as (L1 & L2 & L3 & L4).
    set (extra := extra_requirements c m).
    destruct (unlock_packages_spec m1 l extra) as (l' & E & A & B & _).
    rewrite E.
    assert (NoU : forall n, unlocked m1 l extra n -> False).
    { induction 1 as [n I K|]; auto. unfold extra, extra_requirements in I. apply filter_In in I as [I C].
      apply andb_true_iff in C as [C1 C2]. fold is_extra in C1. unfold is_unlockable_requirement in C2. apply key_in in K as (v & K). apply L2 in K as (p & P & <- & _ & N & _).
      inversion N as [n U|q n Nq Lq Iq E']; subst.
      - destruct U as (r & r' & D & _). assert (is_extra (name p) = false) by (apply X; eauto). congruence.
      - rewrite forallb_forall in C2. apply listed_in in Lq. specialize (C2 q Lq). apply negb_true_iff in C2.
        apply has_in in Iq. congruence. }
    split; [exact R1|]. split; [|eexists; reflexivity].
    intros p. cbn [packages]. change (packages m1) with (packages m). rewrite filter_In, contains_key_iff. split.
    + intros [I K]. split; auto. apply key_in in K as (v & K). apply A, L2 in K as (q & Q & Eq & _ & N & D).
      split; [now apply Ne|]. intros H. specialize (D H). destruct D as [r D]. apply R1 in D as [D _]. now exists r.
    + intros (I & N & D). split; auto. destruct (some_listed m p I) as (q & Q & Eq).
      assert (In (name p, at_version q) l) as J.
      { apply L2. exists q. split; [now apply Ls|]. split; auto. split; auto. split; [now apply Ne|].
        intros H. destruct (D H) as [r Dr]. exists r. apply R1. split; auto. }
      destruct (B _ _ J) as [J'|J']; [|destruct (NoU _ J')]. eapply in_key; eauto.
  - intros Lt. destruct Lk as [_ Lk]. destruct (Lk Lt) as (n & A & B). exists n. rewrite <- Ne, <- Rq. auto.
Qed.
