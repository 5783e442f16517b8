(** Proofs about names of variables in generated JavaScript. *)
From Coq Require Import NArith Bool String List Lia.
From Coq Require Import ZifyBool ZifyNat ZifyN.
From Verif Require Import Text TextProofs Resolve ResolveProofs JsScope JsScopeSpec.
Import ListNotations.
Local Open Scope list_scope.

(** ** Identifiers *)
Definition ident (n : text) (k : N) : text :=
  if N.eqb k 0 then maybe_escape_identifier n
  else if text_eqb n ASSIGNMENT_VAR then str "$" ++ decimal k else n ++ str "$" ++ decimal k.

Definition named (n : text) : Prop := written n \/ n = hole \/ made n.

Lemma plain n : named n -> n = str "$" \/ (~ In 36%N n /\ n <> []).
Proof.
  intros [W|[->|M]].
  - right. destruct W as ((c & r & -> & C & R) & _). split; [|discriminate].
    intros [E|I]; [unfold lower in C; lia|].
    rewrite Forall_forall in R. specialize (R _ I). unfold lower, digit in R. lia.
  - right. split; [vm_compute; intuition discriminate|discriminate].
  - unfold made in M. cbn [map] in M.
    destruct M as [<-|[<-|[<-|[<-|[<-|[<-|[<-|[]]]]]]]]; auto; right; (split; [vm_compute; intuition discriminate|discriminate]).
Qed.

Lemma cut a b c d : ~ In 36%N a -> ~ In 36%N b -> a ++ 36%N :: c = b ++ 36%N :: d -> a = b /\ c = d.
Proof.
  revert b. induction a as [|x a IH]; intros [|y b] A B E; cbn in *.
  - injection E. auto.
  - injection E as <- _. tauto.
  - injection E as -> _. tauto.
  - injection E as -> E. destruct (IH b) as [-> ->]; auto.
Qed.

Lemma decimal_not_nil k : decimal k <> [].
Proof. intros E. pose proof (decimal_value_decimal k) as V. destruct (decimal_first k) as (? & ? & F & _). congruence. Qed.

Lemma dollar_usable : maybe_escape_identifier (str "$") = str "$".
Proof. reflexivity. Qed.

Lemma ident_shape n k : named n ->
  (n = str "$" /\ ((k = 0%N /\ ident n k = [36%N]) \/ (k <> 0%N /\ ident n k = 36%N :: decimal k)))
  \/ (~ In 36%N n /\ n <> [] /\
      ((k = 0%N /\ (ident n k = n \/ ident n k = n ++ [36%N])) \/ (k <> 0%N /\ ident n k = n ++ 36%N :: decimal k))).
Proof.
  intros O. destruct (plain n O) as [->|[P Q]].
  - left. split; auto. unfold ident. destruct (N.eqb_spec k 0) as [->|K]; auto. 
  - right. split; [|split]; auto. unfold ident, maybe_escape_identifier, escape_identifier.
    destruct (N.eqb_spec k 0) as [->|K].
    + left. split; auto. destruct (is_usable_js_identifier n); auto.
    + right. split; auto. destruct (text_eqb n ASSIGNMENT_VAR) eqn:E; auto.
      apply text_eqb_eq in E. subst. exfalso. apply P. vm_compute. auto.
Qed.

Lemma ident_inj n m k j : named n -> named m -> ident n k = ident m j -> n = m /\ k = j.
Proof.
  intros N M E.
  assert (K0 : ident n k = ident m j) by auto.
  destruct (ident_shape n k N) as [(-> & A)|(A & NE & B)]; destruct (ident_shape m j M) as [(-> & C)|(C & ME & D)].
  - split; auto. destruct A as [(-> & A)|(K & A)]; destruct C as [(-> & C)|(J & C)]; auto; rewrite A, C in E; injection E as E.
    + symmetry in E. now apply decimal_not_nil in E.
    + now apply decimal_not_nil in E.
    + now apply decimal_inj.
  - exfalso. assert (F : exists r, ident (str "$") k = 36%N :: r) by (destruct A as [(_ & ->)|(_ & ->)]; eauto).
    destruct F as [r F]. rewrite F in E. destruct m as [|x m]; [congruence|].
    assert (x = 36%N) as -> by (destruct D as [(_ & [D|D])|(_ & D)]; rewrite D in E; cbn in E; injection E; auto).
    apply C. now left.
  - exfalso. assert (F : exists r, ident (str "$") j = 36%N :: r) by (destruct C as [(_ & ->)|(_ & ->)]; eauto).
    destruct F as [r F]. rewrite F in E. destruct n as [|x n]; [congruence|].
    assert (x = 36%N) as -> by (destruct B as [(_ & [D|D])|(_ & D)]; rewrite D in E; cbn in E; injection E; auto).
    apply A. now left.
  - assert (G : forall x l, ~ In 36%N x -> x = l -> ~ In 36%N l) by (intros; congruence).
    assert (I : forall (x : text) l, In 36%N (x ++ 36%N :: l)) by (intros; apply in_or_app; right; now left).
    destruct B as [(-> & [B|B])|(K & B)]; destruct D as [(-> & [D|D])|(J & D)]; rewrite B, D in E.
    + auto.
    + exfalso. apply A. rewrite E. apply I.
    + exfalso. apply A. rewrite E. apply I.
    + exfalso. apply C. rewrite <- E. apply I.
    + apply cut in E; auto. tauto.
    + apply cut in E; auto. destruct E as [_ E]. symmetry in E. now apply decimal_not_nil in E.
    + exfalso. apply C. rewrite <- E. apply I.
    + apply cut in E; auto. destruct E as [_ E]. now apply decimal_not_nil in E.
    + apply cut in E; auto. destruct E as [-> E]. split; auto. now apply decimal_inj.
Qed.

Lemma reserved_plain : Forall (fun w => ~ In 36%N w) reserved.
Proof.
  apply Forall_forall. intros w I.
  assert (H : forallb (fun w => negb (existsb (N.eqb 36) w)) reserved = true) by reflexivity.
  rewrite forallb_forall in H. specialize (H _ I). intros J.
  apply negb_true_iff in H. assert (existsb (N.eqb 36) w = true); [|congruence].
  apply existsb_exists. exists 36%N. auto.
Qed.

Lemma words_reserved x : In x es_words -> In x reserved.
Proof.
  intros I.
  assert (H : forallb (fun w => existsb (text_eqb w) reserved) es_words = true) by reflexivity.
  rewrite forallb_forall in H. specialize (H _ I). apply existsb_exists in H. destruct H as (y & J & E).
  apply text_eqb_eq in E. now subst.
Qed.

Lemma ident_not_word n k : ~ In (ident n k) es_words.
Proof.
  intros I. apply words_reserved in I.
  pose proof reserved_plain as P. rewrite Forall_forall in P. specialize (P _ I).
  unfold ident, maybe_escape_identifier, escape_identifier in *.
  destruct (N.eqb k 0).
  - destruct (is_usable_js_identifier n) eqn:U.
    + unfold is_usable_js_identifier in U. apply negb_true_iff in U.
      assert (existsb (text_eqb n) reserved = true); [|congruence].
      apply existsb_exists. exists n. split; auto. apply text_eqb_refl.
    + apply P. apply in_or_app. right. now left.
  - destruct (text_eqb n ASSIGNMENT_VAR); apply P.
    + now left.
    + apply in_or_app. right. now left.
Qed.

Definition js_char (c : N) : Prop := lower c \/ upper c \/ digit c \/ c = 95%N \/ c = 36%N.
Lemma named_chars n : named n -> exists c r, n = c :: r /\ (lower c \/ upper c \/ c = 95%N \/ c = 36%N) /\ Forall js_char r.
Proof.
  assert (T : forall n, (exists c r, n = c :: r /\ (lower c \/ c = 95%N) /\ Forall (fun c => lower c \/ digit c \/ c = 95%N) r) ->
              exists c r, n = c :: r /\ (lower c \/ upper c \/ c = 95%N \/ c = 36%N) /\ Forall js_char r).
  { intros w (c & r & -> & C & R). exists c, r. split; auto. split; [tauto|].
    eapply Forall_impl; [|exact R]. unfold js_char. intros a. tauto. }
  assert (B : forall r, forallb (fun c => (N.leb 97 c && N.leb c 122) || N.eqb c 95) r = true ->
              Forall (fun c => lower c \/ digit c \/ c = 95%N) r).
  { intros r H. rewrite forallb_forall in H. apply Forall_forall. intros c I. specialize (H _ I). unfold lower, digit. lia. }
  intros [W|[->|M]].
  - destruct W as (W & _). now apply T.
  - apply T. eexists _, _. split; [reflexivity|]. split; [right; reflexivity|]. now apply B.
  - cbn [made map In] in M. unfold made in M. cbn [map] in M.
    destruct M as [<-|[<-|[<-|[<-|[<-|[<-|[<-|[]]]]]]]].
    + exists 36%N, []. split; [reflexivity|]. split; [tauto|constructor].
    + apply T. eexists _, _. split; [reflexivity|]. split; [right; reflexivity|]. now apply B.
    + apply T. eexists _, _. split; [reflexivity|]. split; [right; reflexivity|]. now apply B.
    + apply T. eexists _, _. split; [reflexivity|]. split; [right; reflexivity|]. now apply B.
    + apply T. eexists _, _. split; [reflexivity|]. split; [right; reflexivity|]. now apply B.
    + apply T. eexists _, _. split; [reflexivity|]. split; [right; reflexivity|]. now apply B.
    + apply T. eexists _, _. split; [reflexivity|]. split; [right; reflexivity|]. now apply B.
Qed.

Lemma ident_legal n k : named n -> js_identifier (ident n k).
Proof.
  intros O. split; [apply ident_not_word|].
  destruct (named_chars n O) as (c & r & E & C & R).
  assert (D : Forall js_char (decimal k)).
  { apply Forall_forall. intros d I. right. right. left. pose proof (decimal_digits k) as F.
    rewrite Forall_forall in F. specialize (F _ I). unfold digit, is_digit in *. lia. }
  assert (J : js_char 36%N) by (unfold js_char; tauto).
  enough (exists c r, ident n k = c :: r /\ (lower c \/ upper c \/ c = 95%N \/ c = 36%N) /\ Forall js_char r) by assumption.
  unfold ident, maybe_escape_identifier, escape_identifier. destruct (N.eqb k 0).
  - destruct (is_usable_js_identifier n); subst n; exists c; eexists; (split; [reflexivity|]); split; auto.
    apply Forall_app. split; auto. constructor; auto.
  - destruct (text_eqb n ASSIGNMENT_VAR).
    + exists 36%N. eexists. split; [reflexivity|]. split; auto.
    + subst n. exists c. eexists. split; [reflexivity|]. split; auto. apply Forall_app. split; auto.
      constructor; auto.
Qed.

(** ** Scopes *)
Definition mark (s : scope) (n : text) : N :=
  if in_dec text_eq_dec n (hole :: map str ["$"; "_pipe"; "_block"; "_use"; "_record"; "_assert_subject"; "_assert_fail"]%string)
  then after (counter s n) else after (get n (high_water s)).
Definition next (s : scope) (n : text) : N := N.max (after (counter s n)) (after (get n (high_water s))).

Lemma mark_next s n : (mark s n <= next s n)%N.
Proof. unfold mark, next. destruct (in_dec _ _ _); lia. Qed.

Lemma counter_set s n v m : counter (set_counter s n v) m = if text_eqb n m then Some v else counter s m.
Proof.
  destruct (text_eqb n m) eqn:E.
  - apply text_eqb_eq in E. subst m. destruct s. unfold set_counter, counter.
    repeat match goal with |- context [text_eqb n ?x] => destruct (text_eqb n x) eqn:? end; cbn [JsScope.assignment JsScope.pipe JsScope.block JsScope.use_assignment
      JsScope.record_update JsScope.capture JsScope.assert_subject JsScope.assert_fail JsScope.user_variables]; auto.
    rewrite get_insert, text_eqb_refl. auto.
  - destruct s. unfold set_counter, counter.
    repeat match goal with |- context [text_eqb n ?x] =>
      let F := fresh "F" in destruct (text_eqb n x) eqn:F;
        [apply text_eqb_eq in F; subst n|] end;
    cbn [JsScope.assignment JsScope.pipe JsScope.block JsScope.use_assignment
      JsScope.record_update JsScope.capture JsScope.assert_subject JsScope.assert_fail JsScope.user_variables];
    repeat match goal with |- context [text_eqb m ?x] =>
      let F := fresh "F" in destruct (text_eqb m x) eqn:F;
        [apply text_eqb_eq in F; subst m|] end; auto; try (rewrite text_eqb_refl in E; discriminate).
    rewrite get_insert, E. auto.
Qed.
Lemma high_water_set s n v : high_water (set_counter s n v) = high_water s.
Proof.
  destruct s. unfold set_counter.
  repeat match goal with |- context [text_eqb n ?x] => destruct (text_eqb n x) eqn:? end; reflexivity.
Qed.
Lemma counter_high s h m : counter (set_high_water s h) m = counter s m.
Proof. now destruct s. Qed.
Lemma high_high s h : high_water (set_high_water s h) = h.
Proof. now destruct s. Qed.

Lemma written_user n : written n -> ~ In n (hole :: map str ["$"; "_pipe"; "_block"; "_use"; "_record"; "_assert_subject"; "_assert_fail"]%string).
Proof. intros (_ & M & H) [E|I]; auto. Qed.

Lemma counter_user s n : ~ In n (hole :: map str ["$"; "_pipe"; "_block"; "_use"; "_record"; "_assert_subject"; "_assert_fail"]%string) ->
  counter s n = get n (user_variables s).
Proof.
  intros I. cbn [map In] in I. unfold counter.
  repeat match goal with |- context [text_eqb n ?x] =>
    let F := fresh "F" in destruct (text_eqb n x) eqn:F; [apply text_eqb_eq in F; subst n; exfalso; apply I; vm_compute; tauto|] end.
  auto.
Qed.
Lemma counter_other s u n : In n (hole :: map str ["$"; "_pipe"; "_block"; "_use"; "_record"; "_assert_subject"; "_assert_fail"]%string) ->
  counter (set_user_variables s u) n = counter s n.
Proof.
  intros I. cbn [map In] in I. destruct s.
  destruct I as [<-|[<-|[<-|[<-|[<-|[<-|[<-|[<-|[]]]]]]]]]; reflexivity.
Qed.

Lemma counter_advance s n m : counter (advance_counter s n) m = if text_eqb n m then Some (next s n) else counter s m.
Proof.
  unfold advance_counter. cbn zeta. destruct (contains_key _ _); rewrite ?counter_high, counter_set; reflexivity.
Qed.
Lemma high_advance s n m : get m (high_water (advance_counter s n)) = get m (high_water s)
  \/ (m = n /\ get m (high_water (advance_counter s n)) = Some (next s n)).
Proof.
  unfold advance_counter. cbn zeta. destruct (contains_key _ _); rewrite ?high_high, ?high_water_set; auto.
  rewrite get_insert. destruct (text_eqb n m) eqn:E; auto. apply text_eqb_eq in E. auto.
Qed.
Lemma high_advance_user s n : written n -> get n (high_water (advance_counter s n)) = Some (next s n).
Proof.
  intros W. unfold advance_counter. cbn zeta.
  assert (C : contains_key n (user_variables (set_counter s n (next s n))) = true).
  { unfold contains_key. rewrite <- counter_user by (now apply written_user). rewrite counter_set, text_eqb_refl. auto. }
  unfold next in C. rewrite C, high_high, get_insert, text_eqb_refl. reflexivity.
Qed.

Lemma mark_advance s n m : (mark s m <= mark (advance_counter s n) m)%N.
Proof.
  unfold mark. rewrite counter_advance. destruct (in_dec _ _ _).
  - destruct (text_eqb n m) eqn:E; [|lia]. apply text_eqb_eq in E. subst. unfold next. cbn [after]. lia.
  - destruct (high_advance s n m) as [->|(-> & ->)]; [lia|]. unfold next. cbn [after]. lia.
Qed.
Lemma next_advance s n m : (next s m <= next (advance_counter s n) m)%N.
Proof.
  unfold next at 1 2. rewrite counter_advance. destruct (text_eqb n m) eqn:E.
  - apply text_eqb_eq in E. subst. unfold next. destruct (high_advance s m m) as [->|(_ & ->)]; cbn [after]; unfold next; lia.
  - destruct (high_advance s n m) as [->|(-> & ->)]; [lia|]. now rewrite text_eqb_refl in E.
Qed.
Lemma mark_advanced s n : written n \/ made n -> (next s n < mark (advance_counter s n) n)%N.
Proof.
  intros O. unfold mark. rewrite counter_advance, text_eqb_refl. destruct (in_dec _ _ _) as [I|I].
  - cbn [after]. lia.
  - rewrite high_advance_user; [cbn [after]; lia|]. destruct O as [W|M]; auto. exfalso. apply I. now right.
Qed.

(** [local_var] *)
Lemma local_var_some s n k : counter s n = Some k -> local_var s n = (s, ident n k).
Proof.
  intros C. unfold local_var, ident. rewrite C. destruct k; auto.
Qed.
Lemma next_local_var_eq s n : next_local_var s n = (advance_counter s n, ident n (next s n)).
Proof. unfold next_local_var. apply local_var_some. now rewrite counter_advance, text_eqb_refl. Qed.

(** ** Restoring *)
Lemma get_restore n (prev : list (text * N)) : forall u : list (text * N), get n (fold_right (fun '(n, v) u => insert n v u) u prev)
  = match get n prev with Some v => Some v | None => get n u end.
Proof.
  induction prev as [|[m v] prev IH]; intros u; cbn [fold_right get]; auto.
  rewrite get_insert. destruct (text_eqb m n); auto.
Qed.
Lemma high_restore s prev : high_water (restore_user_variables s prev) = high_water s.
Proof. now destruct s. Qed.
Lemma counter_restore_user s prev n :
  ~ In n (hole :: map str ["$"; "_pipe"; "_block"; "_use"; "_record"; "_assert_subject"; "_assert_fail"]%string) ->
  counter (restore_user_variables s prev) n = match get n prev with Some v => Some v | None => counter s n end.
Proof.
  intros I. rewrite !(counter_user _ _ I). unfold restore_user_variables. destruct s. cbn [set_user_variables JsScope.user_variables].
  apply get_restore.
Qed.
Lemma counter_restore_other s prev n :
  In n (hole :: map str ["$"; "_pipe"; "_block"; "_use"; "_record"; "_assert_subject"; "_assert_fail"]%string) ->
  counter (restore_user_variables s prev) n = counter s n.
Proof. intros I. unfold restore_user_variables. now apply counter_other. Qed.
Lemma mark_restore s prev n : mark (restore_user_variables s prev) n = mark s n.
Proof.
  unfold mark. rewrite high_restore. destruct (in_dec _ _ _) as [I|I]; auto. now rewrite counter_restore_other.
Qed.

(** ** What is declared *)
Record grows (s s' : scope) (d : list (text * nat)) : Prop := {
  grow_next : forall m, (next s m <= next s' m)%N;
  grow_mark : forall m, (mark s m <= mark s' m)%N;
  grow_high : forall m, (after (get m (high_water s)) <= after (get m (high_water s')))%N;
  grow_made : forall m k, In m (hole :: map str ["$"; "_pipe"; "_block"; "_use"; "_record"; "_assert_subject"; "_assert_fail"]%string) ->
    counter s m = Some k -> exists k', counter s' m = Some k' /\ (k <= k')%N /\ (m = hole -> k' = k);
  grow_declared : forall x b, In (x, b) d -> exists m k, x = ident m k /\ named m /\ (next s m <= k < mark s' m)%N;
  grow_distinct : NoDup (map fst d) }.

Lemma grows_refl s : grows s s [].
Proof.
  constructor; intros; try lia.
  - exists k. split; auto. split; auto. lia.
  - destruct H.
  - constructor.
Qed.
Lemma grows_app s s' s'' d d' : grows s s' d -> grows s' s'' d' -> grows s s'' (d ++ d').
Proof.
  intros A B. destruct A, B. constructor; intros.
  - etransitivity; eauto.
  - etransitivity; eauto.
  - etransitivity; eauto.
  - destruct (grow_made0 _ _ H H0) as (k' & C & L & E). destruct (grow_made1 _ _ H C) as (k'' & C' & L' & E').
    exists k''. split; auto. split; [lia|]. intros. rewrite E'; auto.
  - apply in_app_iff in H. destruct H as [H|H].
    + destruct (grow_declared0 _ _ H) as (m & k & E & N & L). exists m, k. split; auto. split; auto. specialize (grow_mark1 m). lia.
    + destruct (grow_declared1 _ _ H) as (m & k & E & N & L). exists m, k. split; auto. split; auto. specialize (grow_next0 m). lia.
  - rewrite map_app.
    assert (D : forall x, In x (map fst d) -> ~ In x (map fst d')).
    { intros x I J. apply in_map_iff in I. destruct I as ([x1 b1] & E1 & I). apply in_map_iff in J. destruct J as ([x2 b2] & E2 & J).
      cbn in *. subst. destruct (grow_declared0 _ _ I) as (m & k & -> & N & L). destruct (grow_declared1 _ _ J) as (m' & k' & E & N' & L').
      apply ident_inj in E; auto. destruct E as [<- <-]. pose proof (mark_next s' m). lia. }
    clear - D grow_distinct0 grow_distinct1. induction d as [|[x b] d IH]; cbn in *; auto.
    inversion grow_distinct0. subst. constructor; auto. rewrite in_app_iff. intros [I|I]; auto. apply (D x); auto.
Qed.

Lemma declarations_app l l' : declarations (l ++ l') = declarations l ++ declarations l'.
Proof. induction l as [|[x b|x|p b] l IH]; cbn; auto. now rewrite IH. Qed.

Lemma statements_cons s h c l : statements s h (c :: l) =
  let '(s, h, out) := generate s h c in let '(s, h, out') := statements s h l in (s, h, out ++ out').
Proof. reflexivity. Qed.
Lemma generate_nested s h body : generate s h (Nested body) = let '(_, _, out) := statements s h body in (s, h, [Braces [] out]).
Proof. reflexivity. Qed.
Lemma generate_block s h body : generate s h (Block body) = let '(s, _, out) := statements s h body in (s, h, [Braces [] out]).
Proof. reflexivity. Qed.
Lemma generate_fn s h args body : generate s h (Fn args body) =
  let '(_, _, out) := statements (set_arguments s args) h body in (s, h, [Braces (parameters args) out]).
Proof. reflexivity. Qed.
Lemma generate_direct s h body : generate s h (Direct body) =
  let '(s', _, out) := statements s h body in (restore_user_variables s' (user_variables s), h, out).
Proof. reflexivity. Qed.

Lemma grows_let s n b : written n \/ made n -> grows s (advance_counter s n) [(ident n (next s n), b)].
Proof.
  intros O. constructor.
  - intros. apply next_advance.
  - intros. apply mark_advance.
  - intros m. destruct (high_advance s n m) as [->|(-> & ->)]; [lia|]. unfold next. cbn [after]. lia.
  - intros m k I C. rewrite counter_advance. destruct (text_eqb n m) eqn:E.
    + apply text_eqb_eq in E. subst m. exists (next s n). split; auto. split; [unfold next; rewrite C; cbn [after]; lia|].
      intros ->. exfalso. destruct O as [W|M].
      * destruct W as (_ & _ & W). auto.
      * revert M. unfold made, hole. vm_compute. intuition discriminate.
    + exists k. split; auto. split; auto. lia.
  - intros x b' [E|[]]. injection E as <- <-. exists n, (next s n). split; auto. split; [unfold named; tauto|].
    pose proof (mark_advanced s n O). lia.
  - constructor; [intros []|constructor].
Qed.
Lemma grows_use s n : grows s (fst (local_var s n)) [].
Proof.
  unfold local_var. destruct (counter s n) eqn:C.
  - destruct n0; apply grows_refl.
  - cbn [fst]. constructor; intros.
    + unfold next. rewrite counter_set, high_water_set. destruct (text_eqb n m) eqn:E; [|lia].
      apply text_eqb_eq in E. subst. rewrite C. cbn [after]. lia.
    + unfold mark. rewrite counter_set, high_water_set. destruct (text_eqb n m) eqn:E; [|lia].
      apply text_eqb_eq in E. subst. rewrite C. destruct (in_dec _ _ _); cbn [after]; lia.
    + rewrite high_water_set. lia.
    + rewrite counter_set. destruct (text_eqb n m) eqn:E; [apply text_eqb_eq in E; congruence|]. exists k. split; auto. split; auto. lia.
    + destruct H.
    + constructor.
Qed.

Lemma grows_statements l : proper l -> forall s h, let '(s', _, out) := statements s h l in grows s s' (declarations out).
Proof.
  induction 1 as [|n b l O P IH|n l O P IH|b l P IH|body l B IHb P IH|body l B IHb P IH|args body l A B IHb P IH|body l B IHb P IH];
    intros s h.
  - apply grows_refl.
  - rewrite statements_cons. cbn [generate]. rewrite next_local_var_eq.
    match goal with |- context [statements ?s1 ?h1 l] => specialize (IH s1 h1); destruct (statements s1 h1 l) as [[s' h'] out] end.
    rewrite declarations_app. eapply grows_app; eauto. apply grows_let; auto.
  - rewrite statements_cons. cbn [generate]. pose proof (grows_use s n) as G. destruct (local_var s n) as [s1 x].
    specialize (IH s1 h). destruct (statements s1 h l) as [[s' h'] out]. exact (grows_app _ _ _ [] _ G IH).
  - rewrite statements_cons. cbn [generate]. specialize (IH s h). destruct (statements s h l) as [[s' h'] out]. exact IH.
  - rewrite statements_cons, generate_nested. destruct (statements s h body) as [[s1 h1] out1].
    specialize (IH s h). destruct (statements s h l) as [[s' h'] out]. exact IH.
  - rewrite statements_cons, generate_block. specialize (IHb s h). destruct (statements s h body) as [[s1 h1] out1].
    specialize (IH s1 h). destruct (statements s1 h l) as [[s' h'] out].
    refine (grows_app s s1 s' [] _ _ IH). destruct IHb. constructor; auto; [intros x b []|constructor].
  - rewrite statements_cons, generate_fn. destruct (statements (set_arguments s args) h body) as [[s1 h1] out1].
    specialize (IH s h). destruct (statements s h l) as [[s' h'] out]. exact IH.
  - rewrite statements_cons, generate_direct. specialize (IHb s h). destruct (statements s h body) as [[s1 h1] out1].
    specialize (IH (restore_user_variables s1 (user_variables s)) h).
    destruct (statements (restore_user_variables s1 (user_variables s)) h l) as [[s' h'] out].
    rewrite declarations_app. refine (grows_app s (restore_user_variables s1 (user_variables s)) s' _ _ _ IH).
    destruct IHb. constructor; auto.
    + intros m. unfold next at 1 2. rewrite high_restore.
      destruct (in_dec text_eq_dec m (hole :: map str ["$"; "_pipe"; "_block"; "_use"; "_record"; "_assert_subject"; "_assert_fail"]%string)) as [I|I].
      * rewrite counter_restore_other by auto. apply grow_next0.
      * rewrite counter_restore_user by auto. rewrite <- counter_user by auto.
        specialize (grow_high0 m). destruct (counter s m); cbn [after]; lia.
    + intros m. rewrite mark_restore. auto.
    + intros m. rewrite high_restore. auto.
    + intros m k I C. rewrite counter_restore_other by auto. auto.
    + intros x b I. destruct (grow_declared0 x b I) as (m & k & E & N & L). exists m, k. rewrite mark_restore. auto.
Qed.

(** ** Arguments *)
Lemma counter_arguments args : forall s m,
  counter (set_arguments s args) m = if in_dec text_eq_dec m (map fst args) then Some 0%N else counter s m.
Proof.
  unfold set_arguments. induction args as [|[n b] args IH]; intros s m; [reflexivity|].
  cbn [fold_left]. rewrite IH, counter_set. cbn [map fst].
  destruct (in_dec text_eq_dec m (map fst args)) as [I|I]; destruct (in_dec text_eq_dec m (n :: map fst args)) as [J|J]; auto.
  - exfalso. apply J. now right.
  - destruct J as [->|J]; [now rewrite text_eqb_refl|contradiction].
  - destruct (text_eqb n m) eqn:E; auto. apply text_eqb_eq in E. exfalso. apply J. now left.
Qed.
Lemma high_arguments args : forall s, high_water (set_arguments s args) = high_water s.
Proof.
  unfold set_arguments. induction args as [|[n b] args IH]; intros s; [reflexivity|].
  cbn [fold_left]. now rewrite IH, high_water_set.
Qed.
Lemma parameters_ident args x b : In (x, b) (parameters args) -> exists n, In (n, b) args /\ x = ident n 0.
Proof.
  unfold parameters. intros I. apply in_map_iff in I. destruct I as ([n b'] & E & I). injection E as <- <-. exists n. auto.
Qed.
Lemma parameters_fst args x : In x (map fst (parameters args)) -> exists n, In n (map fst args) /\ x = ident n 0.
Proof.
  intros I. apply in_map_iff in I. destruct I as ([y b] & E & I). cbn [fst] in E. subst y. apply parameters_ident in I.
  destruct I as (n & I & E). exists n. split; auto. apply in_map_iff. now exists (n, b).
Qed.
Lemma arguments_named args n : arguments args -> In n (map fst args) -> named n.
Proof. intros (_ & F) I. rewrite Forall_forall in F. specialize (F _ I). unfold named. tauto. Qed.

Lemma parameters_distinct args : arguments args -> NoDup (map fst (parameters args)).
Proof.
  intros A. pose proof A as (D & F). clear F. revert A.
  induction args as [|[n b] args IH]; intros A; [constructor|].
  cbn [parameters map fst]. inversion D. subst. constructor.
  - intros I. apply parameters_fst in I. destruct I as (m & I & E).
    change (maybe_escape_identifier n) with (ident n 0) in E. apply ident_inj in E.
    + destruct E as [-> _]. auto.
    + eapply arguments_named; eauto. now left.
    + eapply arguments_named; eauto. now right.
  - apply IH; auto. destruct A as (A & B). split; auto. now inversion B.
Qed.

Lemma body_distinct args body s h : arguments args -> proper body ->
  let '(_, _, out) := statements (set_arguments s args) h body in NoDup (map fst (parameters args ++ declarations out)).
Proof.
  intros A P. pose proof (grows_statements body P (set_arguments s args) h) as G.
  destruct (statements (set_arguments s args) h body) as [[s' h'] out]. destruct G.
  rewrite map_app. pose proof (parameters_distinct args A) as D.
  assert (F : forall x, In x (map fst (parameters args)) -> ~ In x (map fst (declarations out))).
  { intros x I J. apply parameters_fst in I. destruct I as (n & I & ->).
    apply in_map_iff in J. destruct J as ([y b] & E & J). cbn [fst] in E. subst y.
    destruct (grow_declared0 _ _ J) as (m & k & E & N & L).
    apply ident_inj in E; auto; [|eapply arguments_named; eauto]. destruct E as [<- <-].
    unfold next in L. rewrite counter_arguments in L. destruct (in_dec _ _ _); [|contradiction]. cbn [after] in L. lia. }
  clear - D F grow_distinct0. induction (map fst (parameters args)) as [|x l IH]; cbn [app]; auto.
  inversion D. subst. constructor; [|apply IH; auto; intros; apply F; now right].
  rewrite in_app_iff. intros [I|I]; auto. apply (F x); auto. now left.
Qed.

Lemma legal_app l l' : legal l -> legal l' -> legal (l ++ l').
Proof. induction 1; intros; cbn [app]; [auto|constructor; auto..]. Qed.

Lemma legal_statements l : proper l -> forall s h, let '(_, _, out) := statements s h l in legal out.
Proof.
  induction 1 as [|n b l O P IH|n l O P IH|b l P IH|body l B IHb P IH|body l B IHb P IH|args body l A B IHb P IH|body l B IHb P IH];
    intros s h.
  - constructor.
  - rewrite statements_cons. cbn [generate]. rewrite next_local_var_eq.
    match goal with |- context [statements ?s1 ?h1 l] => specialize (IH s1 h1); destruct (statements s1 h1 l) as [[s' h'] out] end.
    now constructor.
  - rewrite statements_cons. cbn [generate]. destruct (local_var s n) as [s1 x].
    specialize (IH s1 h). destruct (statements s1 h l) as [[s' h'] out]. now constructor.
  - rewrite statements_cons. cbn [generate]. specialize (IH s h). destruct (statements s h l) as [[s' h'] out]. now constructor.
  - rewrite statements_cons, generate_nested. specialize (IHb s h). pose proof (grows_statements body B s h) as G.
    destruct (statements s h body) as [[s1 h1] out1].
    specialize (IH s h). destruct (statements s h l) as [[s' h'] out]. constructor; auto. apply G.
  - rewrite statements_cons, generate_block. specialize (IHb s h). pose proof (grows_statements body B s h) as G.
    destruct (statements s h body) as [[s1 h1] out1].
    specialize (IH s1 h). destruct (statements s1 h l) as [[s' h'] out]. constructor; auto. apply G.
  - rewrite statements_cons, generate_fn. specialize (IHb (set_arguments s args) h). pose proof (body_distinct args body s h A B) as G.
    destruct (statements (set_arguments s args) h body) as [[s1 h1] out1].
    specialize (IH s h). destruct (statements s h l) as [[s' h'] out]. constructor; auto.
  - rewrite statements_cons, generate_direct. specialize (IHb s h). destruct (statements s h body) as [[s1 h1] out1].
    specialize (IH (restore_user_variables s1 (user_variables s)) h).
    destruct (statements (restore_user_variables s1 (user_variables s)) h l) as [[s' h'] out]. apply legal_app; auto.
Qed.

(** ** Every name is an identifier *)
Lemma occurs_app x l l' : occurs x (l ++ l') -> occurs x l \/ occurs x l'.
Proof.
  induction l as [|c l IH]; cbn [app]; auto.
  intros O. inversion O; subst; try (left; constructor; now auto).
  - left. econstructor; eauto.
  - destruct (IH H0); auto. left. now constructor.
Qed.
Definition only_named (out : list js) : Prop := forall x, occurs x out -> exists n k, named n /\ x = ident n k.
Lemma only_braces params body l : (forall x b, In (x, b) params -> exists n k, named n /\ x = ident n k) ->
  only_named body -> only_named l -> only_named (Braces params body :: l).
Proof. intros A B C x O. inversion O; subst; eauto. Qed.

Lemma occurs_statements l : proper l -> forall s h, let '(_, _, out) := statements s h l in only_named out.
Proof.
  induction 1 as [|n b l O P IH|n l O P IH|b l P IH|body l B IHb P IH|body l B IHb P IH|args body l A B IHb P IH|body l B IHb P IH];
    intros s h.
  - intros x O. inversion O.
  - rewrite statements_cons. cbn [generate]. rewrite next_local_var_eq.
    match goal with |- context [statements ?s1 ?h1 l] => specialize (IH s1 h1); destruct (statements s1 h1 l) as [[s' h'] out] end.
    intros x I. inversion I; subst; auto. exists n, (next s n). split; auto. unfold named. tauto.
  - rewrite statements_cons. cbn [generate]. destruct (local_var s n) as [s1 x].
    specialize (IH s1 h). destruct (statements s1 h l) as [[s' h'] out]. intros y I. inversion I; subst; auto.
  - rewrite statements_cons. cbn [generate]. specialize (IH s h). destruct (statements s h l) as [[s' h'] out].
    intros y I. inversion I; subst; auto.
  - rewrite statements_cons, generate_nested. specialize (IHb s h). destruct (statements s h body) as [[s1 h1] out1].
    specialize (IH s h). destruct (statements s h l) as [[s' h'] out]. apply only_braces; auto. intros x b [].
  - rewrite statements_cons, generate_block. specialize (IHb s h). destruct (statements s h body) as [[s1 h1] out1].
    specialize (IH s1 h). destruct (statements s1 h l) as [[s' h'] out]. apply only_braces; auto. intros x b [].
  - rewrite statements_cons, generate_fn. specialize (IHb (set_arguments s args) h).
    destruct (statements (set_arguments s args) h body) as [[s1 h1] out1].
    specialize (IH s h). destruct (statements s h l) as [[s' h'] out]. apply only_braces; auto.
    intros x b I. apply parameters_ident in I. destruct I as (n & I & ->). exists n, 0%N. split; auto.
    eapply arguments_named; eauto. apply in_map_iff. now exists (n, b).
  - rewrite statements_cons, generate_direct. specialize (IHb s h). destruct (statements s h body) as [[s1 h1] out1].
    specialize (IH (restore_user_variables s1 (user_variables s)) h).
    destruct (statements (restore_user_variables s1 (user_variables s)) h l) as [[s' h'] out].
    intros x I. apply occurs_app in I. destruct I; auto.
Qed.

(** ** References *)
Record sees (s : scope) (h : names) (env : in_scope) (fs : list frame) : Prop := {
  sees_use : forall n b, latest env n b -> ~ made n -> named n /\ exists k, counter s n = Some k /\ finds fs (ident n k) b;
  sees_held : forall b newer n older, env = newer ++ (n, b) :: older -> made n -> ~ In b (map snd newer) ->
    exists k, given b h = ident n k /\ (k < next s n)%N /\ finds fs (ident n k) b }.

Lemma hole_not_made : ~ made hole.
Proof. unfold made, hole. vm_compute. intuition discriminate. Qed.
Lemma made_in n : made n -> In n (hole :: map str ["$"; "_pipe"; "_block"; "_use"; "_record"; "_assert_subject"; "_assert_fail"]%string).
Proof. intros M. now right. Qed.

Lemma finds_more all before fs x b y c : finds ((all, before) :: fs) x b -> finds ((all, (y, c) :: before) :: fs) x b.
Proof.
  intros F. inversion F; subst.
  - apply finds_here; auto. now right.
  - now apply finds_outside.
Qed.
Lemma finds_adds d : forall all before fs x b, finds ((all, before) :: fs) x b -> finds ((all, rev d ++ before) :: fs) x b.
Proof.
  induction d as [|[y c] d IH]; intros; cbn [rev app]; auto.
  rewrite <- app_assoc. cbn [app]. now apply IH, finds_more.
Qed.

Lemma latest_cons n b env m c : latest ((m, c) :: env) n b -> (m = n /\ c = b) \/ (m <> n /\ latest env n b).
Proof.
  intros (newer & older & E & N). destruct newer as [|[m' c'] newer]; cbn in E; injection E as <- <- E.
  - left. auto.
  - right. cbn in N. split; [tauto|]. exists newer, older. auto.
Qed.
Lemma latest_app args env n b : latest (args ++ env) n b ->
  In (n, b) args \/ (~ In n (map fst args) /\ latest env n b).
Proof.
  induction args as [|[m c] args IH]; cbn [app]; auto.
  intros L. apply latest_cons in L. destruct L as [[-> ->]|[D L]]; [left; now left|].
  destruct (IH L) as [I|[I J]]; [left; now right|]. right. cbn. split; auto. intros [?|?]; auto.
Qed.

Lemma sees_let s h env all before fs n b : written n \/ made n ->
  In (ident n (next s n)) all -> sees s h env ((all, before) :: fs) ->
  sees (advance_counter s n) ((b, ident n (next s n)) :: h) ((n, b) :: env) ((all, (ident n (next s n), b) :: before) :: fs).
Proof.
  intros O I [U H]. constructor.
  - intros m c L M. apply latest_cons in L. destruct L as [[<- <-]|[D L]].
    + split; [unfold named; tauto|]. exists (next s n). rewrite counter_advance, text_eqb_refl. split; auto.
      apply finds_here; auto. now left.
    + destruct (U m c L M) as (O' & k & C & F). split; auto. exists k. rewrite counter_advance.
      assert (text_eqb n m = false) as -> by (now apply text_eqb_neq). split; auto. now apply finds_more.
  - intros c newer m older E M N. destruct newer as [|[m' c'] newer]; cbn in E; injection E as <- <- E.
    + exists (next s n). cbn [given]. rewrite PeanoNat.Nat.eqb_refl. split; auto. split.
      * unfold next at 2. rewrite counter_advance, text_eqb_refl. cbn [after]. lia.
      * apply finds_here; auto. now left.
    + cbn in N. destruct (H c newer m older E M) as (k & G & L & F); [tauto|].
      exists k. cbn [given]. assert (Nat.eqb b c = false) as -> by (apply PeanoNat.Nat.eqb_neq; tauto).
      split; auto. split; [|now apply finds_more]. pose proof (next_advance s n m). lia.
Qed.

(** Going into a block or a function. *)
Lemma sees_enter s h env fs args body : arguments args -> proper body -> sees s h env fs ->
  let '(_, _, out) := statements (set_arguments s args) h body in
  sees (set_arguments s args) h (args ++ env) ((map fst (parameters args ++ declarations out), parameters args) :: fs).
Proof.
  intros A P [U H]. pose proof (grows_statements body P (set_arguments s args) h) as G.
  destruct (statements (set_arguments s args) h body) as [[s' h'] out]. destruct G.
  assert (NX : forall n, ~ In n (map fst args) -> next (set_arguments s args) n = next s n).
  { intros n I. unfold next. rewrite counter_arguments, high_arguments. destruct (in_dec _ _ _); [contradiction|auto]. }
  assert (OUT : forall n k, named n -> ~ In n (map fst args) -> (k < next s n)%N ->
            ~ In (ident n k) (map fst (parameters args ++ declarations out))).
  { intros n k N I L J. rewrite map_app in J. apply in_app_or in J. destruct J as [J|J].
    - apply parameters_fst in J. destruct J as (m & J & E). apply ident_inj in E; auto; [|eapply arguments_named; eauto].
      destruct E as [-> _]. auto.
    - apply in_map_iff in J. destruct J as ([y b] & E & J). cbn [fst] in E. subst y.
      destruct (grow_declared0 _ _ J) as (m & j & E & M & L').
      apply ident_inj in E; auto. destruct E as [<- <-]. rewrite (NX n I) in L'. lia. }
  constructor.
  - intros n b L M. apply latest_app in L. destruct L as [I|[I L]].
    + assert (I' : In n (map fst args)) by (apply in_map_iff; now exists (n, b)).
      split; [eapply arguments_named; eauto|]. exists 0%N. rewrite counter_arguments. destruct (in_dec _ _ _); [|contradiction].
      split; auto.
      assert (J : In (ident n 0, b) (parameters args)) by (unfold parameters; apply in_map_iff; exists (n, b); auto).
      apply finds_here; auto. rewrite map_app. apply in_or_app. left. apply in_map_iff. exists (ident n 0, b). auto.
    + destruct (U n b L M) as (N & k & C & F). split; auto. exists k. rewrite counter_arguments.
      destruct (in_dec _ _ _); [contradiction|]. split; auto. apply finds_outside; auto. apply OUT; auto.
      unfold next. rewrite C. cbn [after]. lia.
  - intros b newer n older E M N.
    assert (NA : ~ In n (map fst args)).
    { intros I. destruct A as (_ & F). rewrite Forall_forall in F. destruct (F _ I) as [W| ->].
      - destruct W as (_ & W & _). auto.
      - now apply hole_not_made. }
    assert (X : exists newer', env = newer' ++ (n, b) :: older /\ ~ In b (map snd newer')).
    { clear - E N NA. revert newer E N. induction args as [|[m c] args IH]; intros newer E N; cbn [app] in E.
      - exists newer. auto.
      - destruct newer as [|[m' c'] newer]; cbn in E; injection E as <- <- E.
        + exfalso. apply NA. now left.
        + apply (IH) with (newer := newer); auto.
          * intros I. apply NA. now right.
          * intros I. apply N. now right. }
    destruct X as (newer' & E' & N'). destruct (H b newer' n older E' M N') as (k & G & L & F).
    exists k. split; auto. split; [now rewrite NX|]. apply finds_outside; auto. apply OUT; auto. unfold named. tauto.
Qed.

(** After code that is not in braces, and whose scope is restored. *)
Lemma sees_direct s h env all before fs s' d : grows s s' d -> sees s h env ((all, before) :: fs) ->
  sees (restore_user_variables s' (user_variables s)) h env ((all, rev d ++ before) :: fs).
Proof.
  intros G [U H]. destruct G. constructor.
  - intros n b L M. destruct (U n b L M) as (N & k & C & F). split; auto. exists k. split; [|now apply finds_adds].
    destruct (in_dec text_eq_dec n (hole :: map str ["$"; "_pipe"; "_block"; "_use"; "_record"; "_assert_subject"; "_assert_fail"]%string)) as [I|I].
    + rewrite counter_restore_other by auto. destruct (grow_made0 n k I C) as (k' & C' & _ & E).
      destruct I as [I|I]; [|contradiction]. rewrite C', E; auto.
    + rewrite counter_restore_user by auto. rewrite <- counter_user by auto. now rewrite C.
  - intros b newer n older E M N. destruct (H b newer n older E M N) as (k & Gv & L & F).
    exists k. split; auto. split; [|now apply finds_adds].
    unfold next. rewrite counter_restore_other by (now apply made_in). rewrite high_restore. specialize (grow_next0 n).
    unfold next in *. lia.
Qed.

Lemma incl_app_l {A} (a b c : list A) : incl (a ++ b) c -> incl a c /\ incl b c.
Proof. intros I. split; intros x J; apply I, in_or_app; auto. Qed.

Lemma no_arguments : arguments [].
Proof. split; constructor. Qed.

Lemma references env l refs : means env l refs -> proper l -> blocks_last l ->
  forall s h all before fs, sees s h env ((all, before) :: fs) ->
  let '(_, _, out) := statements s h l in
  incl (map fst (declarations out)) all ->
  forall l' r', runs ((all, rev (declarations out) ++ before) :: fs) l' r' -> runs ((all, before) :: fs) (out ++ l') (refs ++ r').
Proof.
  induction 1 as [env|env n b l r M IH|env n b l r L NM M IH|env b l r L M IH|env body r l r' MB IHB M IH|env body r l r' MB IHB M IH
                 |env args body r l r' MB IHB M IH|env body r l r' MB IHB M IH];
    intros P BL s h all before fs S; inversion P; subst; inversion BL; subst.
  - cbn. auto.
  - rewrite statements_cons. cbn [generate]. rewrite next_local_var_eq.
    destruct (in_dec text_eq_dec (ident n (next s n)) all) as [I|I].
    + specialize (IH ltac:(assumption) ltac:(assumption) _ _ all _ fs (sees_let s h env all before fs n b ltac:(assumption) I S)).
      match goal with |- context [statements ?s1 ?h1 l] => destruct (statements s1 h1 l) as [[s' h'] out] end.
      cbn [app declarations map fst rev]. intros Inc l' r' R. apply runs_declare. apply IH.
      * intros x J. apply Inc. now right.
      * rewrite <- app_assoc in R. exact R.
    + match goal with |- context [statements ?s1 ?h1 l] => destruct (statements s1 h1 l) as [[s' h'] out] end.
      intros Inc. exfalso. apply I, Inc. now left.
  - rewrite statements_cons. cbn [generate]. destruct (sees_use _ _ _ _ S n b L NM) as (N & k & C & F).
    rewrite (local_var_some s n k C). specialize (IH ltac:(assumption) ltac:(assumption) _ _ _ _ _ S).
    destruct (statements s h l) as [[s' h'] out]. cbn [app declarations]. intros Inc l' r' R. apply runs_refer; auto.
  - rewrite statements_cons. cbn [generate]. destruct L as (newer & n & older & E & MN & N).
    destruct (sees_held _ _ _ _ S b newer n older E MN N) as (k & G & L & F).
    specialize (IH ltac:(assumption) ltac:(assumption) _ _ _ _ _ S).
    destruct (statements s h l) as [[s' h'] out]. cbn [app declarations]. intros Inc l' r' R. apply runs_refer; auto. now rewrite G.
  - rewrite statements_cons, generate_nested.
    pose proof (sees_enter s h env _ [] body no_arguments ltac:(assumption) S) as SE. cbn [set_arguments fold_left parameters map app] in SE.
    specialize (IHB ltac:(assumption) ltac:(assumption) s h).
    destruct (statements s h body) as [[s1 h1] out1].
    specialize (IHB _ _ _ SE (fun x J => J) [] [] (runs_end _)). rewrite !app_nil_r in IHB.
    specialize (IH ltac:(assumption) ltac:(assumption) _ _ _ _ _ S).
    destruct (statements s h l) as [[s' h'] out]. cbn [app declarations]. intros Inc l' r0 R. rewrite <- app_assoc.
    apply runs_braces; auto.
  - rewrite statements_cons, generate_block.
    pose proof (sees_enter s h env _ [] body no_arguments ltac:(assumption) S) as SE. cbn [set_arguments fold_left parameters map app] in SE.
    specialize (IHB ltac:(assumption) ltac:(assumption) s h).
    destruct (statements s h body) as [[s1 h1] out1].
    specialize (IHB _ _ _ SE (fun x J => J) [] [] (runs_end _)). rewrite !app_nil_r in IHB.
    inversion M; subst. cbn [statements app declarations]. intros Inc l' r0 R. rewrite <- app_assoc.
    apply runs_braces; auto.
  - assert (PB : proper body) by auto. assert (BB : blocks_last body) by auto. assert (PL : proper l) by auto.
    assert (LL : blocks_last l) by auto. assert (AA : arguments args) by auto.
    rewrite statements_cons, generate_fn.
    pose proof (sees_enter s h env _ args body AA PB S) as SE.
    specialize (IHB PB BB (set_arguments s args) h).
    destruct (statements (set_arguments s args) h body) as [[s1 h1] out1].
    specialize (IHB _ _ _ SE).
    assert (I : incl (map fst (declarations out1)) (map fst (parameters args ++ declarations out1))).
    { intros x J. rewrite map_app. apply in_or_app. now right. }
    specialize (IHB I [] [] (runs_end _)). rewrite !app_nil_r in IHB.
    specialize (IH PL LL _ _ _ _ _ S).
    destruct (statements s h l) as [[s' h'] out]. cbn [app declarations]. intros Inc l' r0 R. rewrite <- app_assoc.
    apply runs_braces; auto.
  - assert (PB : proper body) by auto. assert (BB : blocks_last body) by auto. assert (PL : proper l) by auto.
    assert (LL : blocks_last l) by auto.
    rewrite statements_cons, generate_direct.
    specialize (IHB PB BB s h _ _ _ S). pose proof (grows_statements body PB s h) as G.
    destruct (statements s h body) as [[s1 h1] out1].
    specialize (IH PL LL _ _ _ _ _ (sees_direct s h env all before fs s1 _ G S)).
    destruct (statements (restore_user_variables s1 (user_variables s)) h l) as [[s' h'] out].
    rewrite declarations_app, map_app, rev_app_distr. intros Inc l' r0 R. apply incl_app_l in Inc. destruct Inc as [I1 I2].
    rewrite <- !app_assoc in *. apply IHB; auto.
Qed.

(** ** Functions of modules *)
Lemma get_module n globals : get n (module_scope globals) = if in_dec text_eq_dec n globals then Some 0%N else None.
Proof.
  unfold module_scope. induction globals as [|m globals IH]; [reflexivity|]. cbn [map get]. rewrite IH.
  destruct (text_eqb m n) eqn:E.
  - apply text_eqb_eq in E. subst. destruct (in_dec text_eq_dec n (n :: globals)) as [J|J]; auto. exfalso. apply J. now left.
  - apply text_eqb_neq in E.
    destruct (in_dec text_eq_dec n globals) as [I|I]; destruct (in_dec text_eq_dec n (m :: globals)) as [J|J]; auto.
    + exfalso. apply J. now right.
    + destruct J; contradiction.
Qed.

Lemma module_sees globals : NoDup (map fst globals) -> Forall written (map fst globals) ->
  sees (new (module_scope (map fst globals))) [] globals [module_frame globals].
Proof.
  intros D W. constructor.
  - intros n b (newer & older & E & N) M.
    assert (I : In (n, b) globals) by (rewrite E; apply in_or_app; right; now left).
    assert (J : In n (map fst globals)) by (apply in_map_iff; now exists (n, b)).
    rewrite Forall_forall in W. pose proof (W _ J) as Wn. split; [now left|]. exists 0%N.
    rewrite counter_user by (now apply written_user). cbn [new JsScope.user_variables]. rewrite get_module.
    destruct (in_dec _ _ _); [|contradiction]. split; auto.
    assert (K : In (ident n 0, b) (parameters globals)) by (unfold parameters; apply in_map_iff; exists (n, b); auto).
    apply finds_here; auto. apply in_map_iff. exists (ident n 0, b). auto.
  - intros b newer n older E M N. exfalso.
    assert (J : In n (map fst globals)) by (rewrite E, map_app; apply in_or_app; right; now left).
    rewrite Forall_forall in W. destruct (W _ J) as (_ & X & _). auto.
Qed.

Lemma loop_fst args x : In x (map fst (loop_parameters args)) -> exists n, In n (map fst args) /\ x = str "loop$" ++ n.
Proof.
  intros I. apply in_map_iff in I. destruct I as ([y b] & E & I). cbn [fst] in E. subst y.
  unfold loop_parameters in I. apply in_map_iff in I. destruct I as ([n c] & E & I). injection E as <- <-.
  exists n. split; auto. apply in_map_iff. now exists (n, c).
Qed.
Lemma loop_distinct args : NoDup (map fst args) -> NoDup (map fst (loop_parameters args)).
Proof.
  induction args as [|[n b] args IH]; intros D; [constructor|]. cbn [loop_parameters map fst] in *. inversion D; subst.
  constructor; auto. intros I. apply loop_fst in I. destruct I as (m & I & E). apply app_inv_head in E. congruence.
Qed.

(** The parameters of a loop are no other identifiers. *)
Lemma loop_other n m k : written n -> written m \/ m = hole -> ident n k <> str "loop$" ++ m.
Proof.
  intros Wn Wm E.
  assert (Nm : exists c r, m = c :: r /\ (lower c \/ c = 95%N)).
  { destruct Wm as [((c & r & -> & C & _) & _)| ->]; [exists c, r; auto|]. eexists _, _. split; [reflexivity|]. now right. }
  destruct Nm as (c & r & -> & C).
  destruct (ident_shape n k (or_introl Wn)) as [(-> & _)|(A & NE & B)].
  { destruct Wn as (_ & X & _). apply X. now left. }
  change (str "loop$" ++ c :: r) with (str "loop" ++ 36%N :: c :: r) in E.
  assert (L : ~ In 36%N (str "loop")) by (vm_compute; intuition discriminate).
  destruct B as [(-> & [B|B])|(K & B)]; rewrite B in E.
  - apply A. rewrite E. apply in_or_app. right. now left.
  - apply cut in E; auto. destruct E as [_ E]. discriminate.
  - apply cut in E; auto. destruct E as [_ E]. pose proof (decimal_digits k) as D. rewrite E in D. inversion D; subst.
    unfold is_digit in *. unfold lower in C. lia.
Qed.

Definition loop_out (args : list (text * nat)) : list js :=
  flat_map (fun '(n, b) => [Refer (str "loop$" ++ n); Declare (maybe_escape_identifier n) b]) args.
Lemma declarations_loop args : declarations (loop_out args) = parameters args.
Proof. unfold loop_out. induction args as [|[n b] args IH]; cbn [flat_map app declarations parameters map]; auto. now rewrite IH. Qed.
Lemma legal_loop args : legal (loop_out args).
Proof. unfold loop_out. induction args as [|[n b] args IH]; cbn [flat_map app]; repeat constructor. auto. Qed.

Lemma runs_loop all outer args : (forall m, In m (map fst args) -> ~ In (str "loop$" ++ m) all) ->
  forall rest before l r, incl rest args -> (forall n b, In (n, b) rest -> finds outer (str "loop$" ++ n) b) ->
  runs ((all, rev (parameters rest) ++ before) :: outer) l r ->
  runs ((all, before) :: outer) (loop_out rest ++ l) (map snd rest ++ r).
Proof.
  intros N. unfold loop_out. induction rest as [|[n b] rest IH]; intros before l r I F R; cbn [flat_map app map snd].
  - exact R.
  - apply runs_refer.
    + apply finds_outside; [|apply F; now left]. apply N. apply in_map_iff. exists (n, b). split; auto. apply I. now left.
    + apply runs_declare. apply IH; auto.
      * intros x J. apply I. now right.
      * intros m c J. apply F. now right.
      * cbn [parameters map rev] in R. rewrite <- app_assoc in R. exact R.
Qed.

Lemma sees_more s h env all before d fs : sees s h env ((all, before) :: fs) -> incl before d ->
  sees s h env ((all, d) :: fs).
Proof.
  intros [U H] I.
  assert (X : forall x b, finds ((all, before) :: fs) x b -> finds ((all, d) :: fs) x b).
  { intros x b F. inversion F; subst; [apply finds_here; auto|now apply finds_outside]. }
  constructor.
  - intros n b L M. destruct (U n b L M) as (N & k & C & F). split; auto. exists k. auto.
  - intros b newer n older E M N. destruct (H b newer n older E M N) as (k & G & L & F). exists k. auto.
Qed.

Lemma sees_loop globals args : NoDup (map fst globals) -> Forall written (map fst globals) -> arguments args ->
  sees (new (module_scope (map fst globals))) [] globals
    [(map fst (loop_parameters args), loop_parameters args); module_frame globals].
Proof.
  intros D W A. destruct (module_sees globals D W) as [U H]. constructor.
  - intros n b L M. destruct (U n b L M) as (N & k & C & F). split; auto. exists k. split; auto.
    apply finds_outside; auto. intros I. apply loop_fst in I. destruct I as (m & I & E).
    assert (Wn : written n).
    { destruct L as (newer & older & E' & _). rewrite Forall_forall in W. apply W. rewrite E', map_app. apply in_or_app. right. now left. }
    apply loop_other in E; auto. destruct A as (_ & A). rewrite Forall_forall in A. auto.
  - intros b newer n older E M N. exfalso.
    assert (J : In n (map fst globals)) by (rewrite E, map_app; apply in_or_app; right; now left).
    rewrite Forall_forall in W. destruct (W _ J) as (_ & X & _). auto.
Qed.

Lemma loop_not_ident args body s h : arguments args -> Forall written (map fst args) -> proper body ->
  let '(_, _, out) := statements (set_arguments s args) h body in
  forall m, In m (map fst args) -> ~ In (str "loop$" ++ m) (map fst (parameters args ++ declarations out)).
Proof.
  intros A W P. pose proof (grows_statements body P (set_arguments s args) h) as G.
  destruct (statements (set_arguments s args) h body) as [[s' h'] out]. destruct G.
  intros m Im I. rewrite Forall_forall in W. pose proof (W _ Im) as Wm.
  assert (X : forall n k, named n -> ident n k <> str "loop$" ++ m).
  { intros n k N E.
    destruct (ident_shape n k N) as [(-> & B)|(NI & NE & B)].
    - destruct B as [(_ & B)|(_ & B)]; rewrite B in E; discriminate.
    - destruct N as [N|N]; [exact (loop_other n m k N (or_introl Wm) E)|].
      assert (nth 0 n 0%N = 95%N \/ n = str "$") as [F| ->].
      { destruct N as [->|N]; [now left|]. unfold made in N. cbn [map In] in N.
        destruct N as [<-|[<-|[<-|[<-|[<-|[<-|[<-|[]]]]]]]]; auto. }
      + destruct n as [|c n]; [congruence|]. cbn in F. subst c.
        destruct B as [(_ & [B|B])|(_ & B)]; rewrite B in E; discriminate.
      + apply NI. now left. }
  rewrite map_app in I. apply in_app_or in I. destruct I as [I|I].
  - apply parameters_fst in I. destruct I as (n & I & E). symmetry in E. revert E. apply X. eapply arguments_named; eauto.
  - apply in_map_iff in I. destruct I as ([y b] & E & I). cbn [fst] in E. subst y.
    destruct (grow_declared0 _ _ I) as (n & k & E & N & _). symmetry in E. revert E. now apply X.
Qed.

Lemma loop_legal_identifier n : written n -> js_identifier (str "loop$" ++ n).
Proof.
  intros W. split.
  - intros I. apply words_reserved in I. pose proof reserved_plain as P. rewrite Forall_forall in P. apply (P _ I).
    apply in_or_app. left. vm_compute. tauto.
  - exists 108%N. eexists. split; [reflexivity|]. split; [left; unfold lower; lia|].
    destruct (named_chars n (or_introl W)) as (c & r & -> & C & R).
    enough (Forall js_char (str "oop$" ++ c :: r)) by assumption.
    apply Forall_app. split.
    + unfold js_char, lower, upper, digit. cbn. repeat (apply Forall_cons; [lia|]). constructor.
    + constructor; auto. unfold js_char. tauto.
Qed.
