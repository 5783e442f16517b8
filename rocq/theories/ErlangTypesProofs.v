From Coq Require Import String NArith List Bool Lia ZArith ZifyBool ZifyN ZifyNat Sorted.
From Verif Require Import Text TextProofs Strings StringsSpec StringsProofs ErlangSource ErlangSourceSpec
  ErlangTypes ErlangTypesSpec.
Import ListNotations.
Local Open Scope nat_scope.
Local Open Scope list_scope.

(** ** Names of variables *)

Definition letters (a : N) (s : text) : N := fold_left (fun a c => (26 * a + (c - 65))%N) s a.
Definition name_value (s : text) : N :=
  match s with
  | [] => 0%N
  | [c] => (c - 65)%N
  | c :: s => letters (c - 64) s
  end.

Lemma letters_app s : forall a r, letters a (s ++ r) = letters (letters a s) r.
Proof. intros. apply fold_left_app. Qed.

Lemma letters_bound s : Forall (fun c => is_upper c = true) s -> forall a,
  (a * 26 ^ N.of_nat (length s) <= letters a s < (a + 1) * 26 ^ N.of_nat (length s))%N.
Proof.
  induction 1 as [|c s H F IH]; intro a; [cbn; lia|].
  cbn [letters fold_left length]. fold (letters (26 * a + (c - 65)) s).
  specialize (IH (26 * a + (c - 65))%N). unfold is_upper in H.
  replace (N.of_nat (S (length s))) with (1 + N.of_nat (length s))%N by lia.
  rewrite N.pow_add_r. change (26 ^ 1)%N with 26%N.
  assert (D : exists d, (c - 65 = d /\ d < 26)%N) by (exists (c - 65)%N; lia).
  destruct D as (d & E & D). rewrite E in *. clear - IH D. nia.
Qed.

Lemma loop_spec f : forall n acc, (1 <= n < 2 ^ N.of_nat f)%N ->
  exists c r, id_to_type_var_loop f n acc = Some (c :: r ++ rev acc) /\
    (is_upper c = true /\ c < 90)%N /\ Forall (fun c => is_upper c = true) r /\ letters (c - 64) r = n.
Proof.
  induction f as [|f IH]; intros n acc B; [cbn in B; lia|].
  cbn [id_to_type_var_loop]. destruct (26 <=? n)%N eqn:E.
  - assert (D : (26 <= n)%N) by lia.
    assert (Q : (1 <= n / 26)%N) by (apply N.div_le_lower_bound; lia).
    assert (U : (n / 26 < 2 ^ N.of_nat f)%N).
    { apply N.div_lt_upper_bound; [lia|].
      replace (N.of_nat (S f)) with (1 + N.of_nat f)%N in B by lia. rewrite N.pow_add_r in B.
      change (2 ^ 1)%N with 2%N in B. nia. }
    destruct (IH (n / 26)%N (acc ++ [(n mod 26 + 65)%N]) (conj Q U)) as (c & r & R & [C C'] & F & V).
    exists c, (r ++ [(n mod 26 + 65)%N]). repeat split; try assumption.
    + rewrite R, rev_app_distr, <- app_assoc. reflexivity.
    + apply Forall_app. split; [exact F|]. repeat constructor. unfold is_upper.
      pose proof (N.mod_lt n 26 ltac:(discriminate)). lia.
    + rewrite letters_app, V. cbn [letters fold_left]. pose proof (N.div_mod n 26 ltac:(discriminate)). lia.
  - exists (n mod 26 + 64)%N, []. rewrite rev_app_distr. repeat split; try constructor.
    + rewrite N.mod_small by lia. unfold is_upper. lia.
    + rewrite N.mod_small by lia. lia.
    + cbn [letters fold_left]. rewrite N.mod_small by lia. lia.
Qed.

Lemma name_shape id : exists c r, id_to_type_var_str id = c :: r /\
  is_upper c = true /\ Forall (fun c => is_upper c = true) r /\
  (if (id <? 26)%N then r = [] /\ (c = id + 65)%N
   else r <> [] /\ (65 <= c < 90)%N /\ letters (c - 64) r = id).
Proof.
  unfold id_to_type_var_str. destruct (id <? 26)%N eqn:E.
  - exists (id mod 26 + 65)%N, []. rewrite N.mod_small by lia. repeat split; try constructor. unfold is_upper. lia.
  - pose proof (size_nat_bound id) as B.
    destruct (loop_spec (S (N.size_nat id)) id []) as (c & r & R & [C C'] & F & V).
    { replace (N.of_nat (S (N.size_nat id))) with (1 + N.of_nat (N.size_nat id))%N by lia.
      rewrite N.pow_add_r. change (2 ^ 1)%N with 2%N. lia. }
    rewrite R. cbn [rev]. rewrite app_nil_r. exists c, r. repeat split; try assumption.
    + intros ->. cbn in V. unfold is_upper in C. lia.
    + unfold is_upper in C. lia.
Qed.

Lemma name_decodes id : name_value (id_to_type_var_str id) = id.
Proof.
  destruct (name_shape id) as (c & r & -> & C & F & V). destruct (id <? 26)%N.
  - destruct V as [-> ->]. cbn. lia.
  - destruct V as (N & _ & V). destruct r; [contradiction|exact V].
Qed.
Lemma name_inj a b : id_to_type_var_str a = id_to_type_var_str b -> a = b.
Proof. intro H. rewrite <- (name_decodes a), <- (name_decodes b), H. reflexivity. Qed.
Lemma name_eqb a b : text_eqb (id_to_type_var_str a) (id_to_type_var_str b) = (a =? b)%N.
Proof.
  destruct (a =? b)%N eqn:E.
  - apply N.eqb_eq in E. subst. apply text_eqb_refl.
  - apply text_eqb_neq. intro H. apply name_inj in H. lia.
Qed.
Lemma name_is_variable id : variable_name (id_to_type_var_str id) = true.
Proof.
  destruct (name_shape id) as (c & r & -> & C & F & _). cbn [variable_name]. rewrite C. cbn [orb andb].
  apply forallb_forall. intros x I. rewrite Forall_forall in F. apply F in I.
  unfold Erl.name_char, is_alphanumeric. rewrite I. rewrite orb_true_r. reflexivity.
Qed.

(** The order of names of the same length. *)
Lemma letters_order s : forall r a b, length s = length r ->
  Forall (fun c => is_upper c = true) s -> Forall (fun c => is_upper c = true) r ->
  (a < b)%N -> (letters a s < letters b r)%N.
Proof.
  intros r a b L S R H. pose proof (letters_bound s S a). pose proof (letters_bound r R b).
  rewrite L in *. nia.
Qed.
Lemma text_leb_letters s : forall r a, length s = length r ->
  Forall (fun c => is_upper c = true) s -> Forall (fun c => is_upper c = true) r ->
  (letters a s <= letters a r)%N -> text_leb s r = true.
Proof.
  induction s as [|x s IH]; intros [|y r] a L S R H; try discriminate; [reflexivity|].
  cbn [text_leb length] in *. injection L as L. inversion_clear S. inversion_clear R.
  cbn [letters fold_left] in H. fold (letters (26 * a + (x - 65)) s) in H. fold (letters (26 * a + (y - 65)) r) in H.
  destruct (x =? y)%N eqn:E.
  - apply N.eqb_eq in E. subst y. eapply IH; eauto.
  - destruct (x <? y)%N eqn:E2; [reflexivity|].
    pose proof (letters_order r s (26 * a + (y - 65)) (26 * a + (x - 65)) (eq_sym L)) as O.
    unfold is_upper in *. specialize (O ltac:(assumption) ltac:(assumption)). lia.
Qed.

Definition same_length (k : N) (id : N) : Prop :=
  (26 ^ k <= id < 26 ^ (k + 1))%N \/ (k = 0 /\ id < 26)%N.
Lemma name_length k id : same_length k id -> length (id_to_type_var_str id) = S (N.to_nat k).
Proof.
  intro H. destruct (name_shape id) as (c & r & -> & C & F & V). cbn [length]. f_equal.
  destruct (id <? 26)%N eqn:E.
  - destruct V as [-> ->]. destruct H as [H|[-> _]]; [|reflexivity].
    destruct (N.eq_dec k 0) as [->|K]; [reflexivity|].
    assert (26 ^ 1 <= 26 ^ k)%N by (apply N.pow_le_mono_r; lia). lia.
  - destruct V as (_ & G & V). destruct H as [H|H]; [|lia].
    pose proof (letters_bound r F (c - 64)) as B. rewrite V in B. unfold is_upper in C.
    set (j := N.of_nat (length r)) in *.
    assert (B1 : (26 ^ j <= id)%N) by nia.
    assert (B2 : (id < 26 ^ (j + 1))%N).
    { rewrite N.pow_add_r. change (26 ^ 1)%N with 26%N. nia. }
    destruct (N.lt_trichotomy j k) as [L|[L|L]]; [| lia |].
    + assert (26 ^ (j + 1) <= 26 ^ k)%N by (apply N.pow_le_mono_r; lia). lia.
    + assert (26 ^ (k + 1) <= 26 ^ j)%N by (apply N.pow_le_mono_r; lia). lia.
Qed.
Lemma name_order k a b : same_length k a -> same_length k b -> (a <= b)%N ->
  text_leb (id_to_type_var_str a) (id_to_type_var_str b) = true.
Proof.
  intros A B L. pose proof (name_length k a A) as LA. pose proof (name_length k b B) as LB.
  destruct (name_shape a) as (c & r & EA & C & F & V). destruct (name_shape b) as (d & s & EB & D & G & W).
  rewrite EA, EB in *. cbn [length] in *.
  assert (LE : length r = length s) by lia.
  cbn [text_leb]. destruct (c =? d)%N eqn:E.
  - apply N.eqb_eq in E. subst d. destruct (a <? 26)%N, (b <? 26)%N.
    + destruct V as [-> _]. reflexivity.
    + destruct V as [-> _]. reflexivity.
    + destruct W as [-> _]. destruct r; [reflexivity|discriminate LE].
    + apply (text_leb_letters r s (c - 64)); try assumption. destruct V as (_ & _ & ->), W as (_ & _ & ->). exact L.
  - destruct (c <? d)%N eqn:E2; [reflexivity|].
    destruct (a <? 26)%N eqn:EA', (b <? 26)%N eqn:EB'; try lia.
    + destruct V as [-> _]. destruct W as (N & _). destruct s; [contradiction|discriminate LE].
    + pose proof (letters_order s r (d - 64) (c - 64) (eq_sym LE) G F ltac:(lia)). lia.
Qed.

(** ** Induction *)

Lemma gtype_rect' (P : gtype -> Prop) :
  (forall x, P (GVar x)) -> (forall t, P t -> P (GLink t)) ->
  (forall m n l, Forall P l -> P (GNamed m n l)) ->
  (forall l r, Forall P l -> P r -> P (GFn l r)) ->
  (forall l, Forall P l -> P (GTuple l)) -> forall t, P t.
Proof.
  intros HV HL HN HF HT.
  fix IH 1. intros [x|t|m n l|l r|l].
  - apply HV.
  - apply HL, IH.
  - apply HN. induction l as [|t l IHl]; constructor; [apply IH|exact IHl].
  - apply HF; [|apply IH]. induction l as [|t l IHl]; constructor; [apply IH|exact IHl].
  - apply HT. induction l as [|t l IHl]; constructor; [apply IH|exact IHl].
Qed.

Lemma each_Forall {A} (P : A -> Prop) l : each P l <-> Forall P l.
Proof.
  induction l as [|a l IH]; cbn; [split; constructor|]. rewrite IH. split; [intros []; now constructor|now inversion 1].
Qed.

(** ** Counting *)

Definition count (id : N) (ids : usages) : N := match usage id ids with Some n => n | None => 0%N end.
Definition sound (ids : usages) : Prop := NoDup (map fst ids) /\ Forall (fun p => (1 <= snd p)%N) ids.

Lemma usage_none id ids : usage id ids = None <-> ~ In id (map fst ids).
Proof.
  induction ids as [|[i n] ids IH]; cbn; [tauto|]. destruct (i =? id)%N eqn:E.
  - split; [discriminate|]. intro H. exfalso. apply H. left. lia.
  - rewrite IH. split; [|tauto]. intros H [X|X]; [lia|tauto].
Qed.
Lemma count_key id ids : sound ids -> In id (map fst ids) <-> (1 <= count id ids)%N.
Proof.
  intros [_ F]. unfold count. destruct (usage id ids) as [n|] eqn:U.
  - split; intros _.
    + revert U. induction F as [|[i k] ids H F IH]; cbn; [discriminate|].
      destruct (i =? id)%N; [injection 1 as <-; exact H|exact IH].
    + destruct (in_dec N.eq_dec id (map fst ids)) as [I|I]; [exact I|].
      apply usage_none in I. congruence.
  - apply usage_none in U. split; [tauto|lia].
Qed.

Lemma modify_keys f v id ids k :
  In k (map fst (modify_or_insert f v id ids)) <-> k = id \/ In k (map fst ids).
Proof.
  induction ids as [|[i n] ids IH]; cbn; [intuition|]. destruct (i =? id)%N eqn:E; cbn.
  - apply N.eqb_eq in E. subst. intuition.
  - rewrite IH. intuition.
Qed.
Lemma modify_sound f v id ids : (1 <= v)%N -> (forall n, (1 <= n)%N -> (1 <= f n)%N) -> sound ids ->
  sound (modify_or_insert f v id ids).
Proof.
  intros V Fp [D F]. induction ids as [|[i n] ids IH]; cbn.
  - split; repeat constructor; [tauto|exact V].
  - inversion_clear D as [|? ? NI D']. inversion_clear F as [|? ? H F']. destruct (i =? id)%N eqn:E.
    + split; cbn; constructor; try assumption. apply Fp, H.
    + destruct (IH D' F') as [A B]. split; cbn; constructor; try assumption.
      rewrite modify_keys. intros [X|X]; [lia|tauto].
Qed.
Lemma modify_count f v id ids k :
  count k (modify_or_insert f v id ids) =
  if (k =? id)%N then match usage id ids with Some n => f n | None => v end else count k ids.
Proof.
  unfold count. induction ids as [|[i n] ids IH].
  - cbn. rewrite N.eqb_sym. destruct (k =? id)%N; reflexivity.
  - cbn [modify_or_insert usage]. destruct (i =? id)%N eqn:E.
    + cbn [usage]. destruct (i =? k)%N eqn:E2, (k =? id)%N eqn:E3; try lia; reflexivity.
    + cbn [usage]. destruct (i =? k)%N eqn:E2; [|exact IH].
      destruct (k =? id)%N eqn:E3; [lia|reflexivity].
Qed.

Lemma merge_sound (f : N -> N -> N) (g : forall l ids, usages) :
  (forall l ids, g l ids = fold_left (fun ids '(id, c) => modify_or_insert (fun n => f n c) c id ids) l ids) ->
  (forall n c, (1 <= n)%N -> (1 <= c)%N -> (1 <= f n c)%N) ->
  forall l ids, sound l -> sound ids -> sound (g l ids).
Proof.
  intros G Fp l ids [_ F]. rewrite G. clear G. revert ids. induction F as [|[i c] l H F IH]; intros ids S; [exact S|].
  cbn [fold_left]. apply IH. apply modify_sound; [exact H|intros n Hn; apply Fp; [exact Hn|exact H]|exact S].
Qed.
Lemma merge_count (f : N -> N -> N) (k : N) : (forall n, f n 0%N = n) -> (forall n, f 0%N n = n) ->
  forall l ids, NoDup (map fst l) ->
  count k (fold_left (fun ids '(id, c) => modify_or_insert (fun n => f n c) c id ids) l ids) =
  f (count k ids) (count k l).
Proof.
  intros F0 F1. induction l as [|[i c] l IH]; intros ids D.
  - cbn. symmetry. apply F0.
  - inversion_clear D as [|? ? NI D']. cbn [fold_left]. rewrite IH by exact D'. rewrite modify_count.
    destruct (i =? k)%N eqn:E.
    + apply N.eqb_eq in E. subst i. rewrite N.eqb_refl. cbn in NI. apply usage_none in NI.
      unfold count. rewrite NI. cbn [usage]. rewrite N.eqb_refl, F0.
      destruct (usage k ids); [reflexivity|symmetry; apply F1].
    + rewrite N.eqb_sym, E. unfold count. cbn [usage]. rewrite E. reflexivity.
Qed.

Lemma result_sound a b : sound a -> sound b -> sound (result_counts a b).
Proof.
  intros A B. apply (merge_sound (fun n c => if (n <? c)%N then c else n) (fun l ids => result_counts ids l)).
  - reflexivity.
  - intros n c. destruct (n <? c)%N; lia.
  - exact B.
  - exact A.
Qed.
Lemma result_count k a b : sound b -> count k (result_counts a b) = N.max (count k a) (count k b).
Proof.
  intros [D _]. unfold result_counts. rewrite (merge_count (fun n c => if (n <? c)%N then c else n)).
  - destruct (_ <? _)%N eqn:E; lia.
  - intro n. destruct (n <? 0)%N eqn:E; lia.
  - intro n. destruct (0 <? n)%N eqn:E; lia.
  - exact D.
Qed.
Lemma add_sound a b : sound a -> sound b -> sound (add_counts a b).
Proof. intros A B. apply (merge_sound N.add add_counts); auto; [intros n c; lia]. Qed.
Lemma add_count k a b : sound a -> count k (add_counts a b) = (count k b + count k a)%N.
Proof. intros [D _]. apply (merge_count N.add); [intro; lia..|exact D]. Qed.

Lemma sum_cons a l : list_sum (a :: l) = a + list_sum l.
Proof. reflexivity. Qed.
Lemma max_cons a l : list_max (a :: l) = Nat.max a (list_max l).
Proof. reflexivity. Qed.

Lemma counts : forall t, proper t -> forall ids, sound ids ->
  sound (type_var_ids t ids) /\
  forall k, count k (type_var_ids t ids) = (count k ids + N.of_nat (uses k t))%N.
Proof.
  set (P := fun t => proper t -> forall ids, sound ids ->
    sound (type_var_ids t ids) /\
    forall k, count k (type_var_ids t ids) = (count k ids + N.of_nat (uses k t))%N).
  assert (All : forall l, Forall P l -> each proper l -> forall ids, sound ids ->
    sound (fold_left (fun ids t => type_var_ids t ids) l ids) /\
    forall k, count k (fold_left (fun ids t => type_var_ids t ids) l ids) =
      (count k ids + N.of_nat (list_sum (map (uses k) l)))%N).
  { induction 1 as [|t l H F IH]; intros W ids S; [split; [exact S|intro k; cbn; rewrite N.add_0_r; reflexivity]|].
    destruct W as [W1 W2]. destruct (H W1 ids S) as [S1 C1]. destruct (IH W2 _ S1) as [S2 C2].
    cbn [fold_left map]. split; [exact S2|]. intro k. rewrite C2, C1, sum_cons. lia. }
  apply (gtype_rect' P); unfold P.
  - intros x _ ids S. split.
    + apply modify_sound; [lia|intros; lia|exact S].
    + intro k. cbn [type_var_ids uses]. rewrite modify_count. destruct (k =? x)%N eqn:E; [|lia].
      apply N.eqb_eq in E. subst. unfold count. destruct (usage x ids); lia.
  - intros t H W. exact (H W).
  - intros m n l F [W A] ids S. cbn [type_var_ids uses]. fold P in F.
    change (is_prelude_module m) with (text_eqb m (str "gleam")).
    destruct (text_eqb m (str "gleam") && text_eqb n (str "Result")) eqn:E.
    + apply andb_true_iff in E as [E1 E2]. apply text_eqb_eq in E2. subst n.
      destruct (A E1) as [[B _]|[[B _]|[_ L]]]; [now contradiction B|discriminate B|].
      destruct l as [|a [|b [|]]]; try discriminate L.
      inversion_clear F as [|? ? Fa F']. inversion_clear F' as [|? ? Fb _]. destruct W as (Wa & Wb & _).
      assert (S0 : sound []) by (split; constructor).
      destruct (Fa Wa [] S0) as [Sa Ca]. destruct (Fb Wb [] S0) as [Sb Cb].
      pose proof (result_sound _ _ Sa Sb) as SR. split; [apply add_sound; assumption|].
      intro k. rewrite add_count by exact SR. rewrite result_count by exact Sb. rewrite Ca, Cb. cbn [map]. rewrite !max_cons.
      change (list_max []) with 0. change (count k []) with 0%N. lia.
    + apply All; assumption.
  - intros l r F H [W1 W2] ids S. destruct (All l F W1 ids S) as [S1 C1]. destruct (H W2 _ S1) as [S2 C2].
    cbn [type_var_ids uses]. split; [exact S2|]. intro k. rewrite C2, C1. lia.
  - intros l F W ids S. apply All; assumption.
Qed.

Lemma collects l : Forall proper l -> forall ids, sound ids ->
  sound (collect_type_var_usages ids l) /\
  forall k, count k (collect_type_var_usages ids l) = (count k ids + N.of_nat (list_sum (map (uses k) l)))%N.
Proof.
  induction 1 as [|t l H F IH]; intros ids S; [split; [exact S|intro k; cbn; rewrite N.add_0_r; reflexivity]|].
  destruct (counts t H ids S) as [S1 C1]. destruct (IH _ S1) as [S2 C2].
  cbn [collect_type_var_usages fold_left map] in *. split; [exact S2|]. intro k. rewrite C2, C1, sum_cons. lia.
Qed.
Lemma collects_new l : Forall proper l ->
  sound (collect_type_var_usages [] l) /\
  forall k, count k (collect_type_var_usages [] l) = N.of_nat (list_sum (map (uses k) l)).
Proof. intro H. apply (collects l H []). split; constructor. Qed.

(** ** Types *)

Lemma safe_name n : erl_safe_type_name (to_snake_case n) = erlang_name n.
Proof.
  unfold erl_safe_type_name, erlang_name. generalize (to_snake_case n). intro s.
  change (str "_") with [95%N].
  match goal with |- (if ?a then _ else _) = (if ?b then _ else _) => replace b with a; [reflexivity|] end.
  apply eq_true_iff_eq. rewrite andb_true_iff, negb_true_iff, existsb_exists. unfold is_in.
  rewrite existsb_exists. split.
  - intros (x & I & E). apply text_eqb_eq in E. subst s. split.
    + exists (str x). split; [|apply text_eqb_refl].
      repeat destruct I as [<-|I]; try contradiction; apply in_map; cbn; tauto.
    + repeat destruct I as [<-|I]; try contradiction; reflexivity.
  - intros [(x & I & E) H]. apply text_eqb_eq in E. subst x.
    apply in_map_iff in I as (x & <- & I). exists x. split; [|apply text_eqb_refl].
    repeat destruct I as [<-|I]; try contradiction; try discriminate H; cbn; tauto.
Qed.

Definition generator_variable (g : type_generator) (id : N) : tree :=
  if var_as_any g || used_exactly_once g id then any_type else YVar (id_to_type_var_str id).

Lemma each_type_calls g here l :
  Forall (fun t => proper t -> type_ g t = Some (type_calls (erlang_type (generator_variable g) here t))) l ->
  each proper l ->
  each_type (type_ g) l = Some (flat_map type_calls (map (erlang_type (generator_variable g) here) l)).
Proof.
  induction 1 as [|t l H F IH]; intro W; [reflexivity|]. destruct W as [W1 W2].
  cbn [each_type map flat_map]. fold (each_type (type_ g)). rewrite (H W1), (IH W2). reflexivity.
Qed.

Lemma type_is g t : proper t ->
  type_ g t = Some (type_calls (erlang_type (generator_variable g) (current_module g) t)).
Proof.
  revert t. apply (gtype_rect' (fun t => proper t ->
    type_ g t = Some (type_calls (erlang_type (generator_variable g) (current_module g) t)))).
  - intros x _. cbn. unfold generator_variable. destruct (_ || _); reflexivity.
  - intros t H W. exact (H W).
  - intros m n l F [W A]. cbn [type_ erlang_type]. change (is_prelude_module m) with (text_eqb m (str "gleam")).
    destruct (text_eqb m (str "gleam")) eqn:E.
    + destruct (A eq_refl) as [[B ->]|[[-> L]|[-> L]]].
      * unfold simple_type in B. cbn [simple_types map find fst] in B.
        repeat match type of B with
        | option_map _ (if text_eqb ?a n then _ else _) <> _ =>
            let E := fresh in destruct (text_eqb a n) eqn:E;
            [apply text_eqb_eq in E; subst n; reflexivity|]
        end. now contradiction B.
      * destruct l as [|a [|]]; try discriminate L. inversion_clear F as [|? ? H _]. destruct W as [W _].
        cbn -[type_ erlang_type type_calls]. rewrite (H W). cbn. rewrite app_nil_r. reflexivity.
      * destruct l as [|a [|b [|]]]; try discriminate L. inversion_clear F as [|? ? H F']. inversion_clear F' as [|? ? H' _].
        destruct W as (W & W' & _). cbn -[type_ erlang_type type_calls]. rewrite (H W), (H' W').
        cbn. rewrite !app_nil_r. repeat (rewrite <- app_assoc; cbn [app]). reflexivity.
    + rewrite (each_type_calls g (current_module g) l F W). rewrite safe_name.
      replace (text_eqb m (current_module g)) with (text_eqb (current_module g) m).
      2: { apply eq_true_iff_eq. rewrite !text_eqb_eq. split; congruence. }
      destruct (text_eqb (current_module g) m); reflexivity.
  - intros l r F H [W1 W2]. cbn [type_ erlang_type]. rewrite (each_type_calls g (current_module g) l F W1), (H W2). reflexivity.
  - intros l F W. cbn [type_ erlang_type]. rewrite (each_type_calls g (current_module g) l F W). reflexivity.
Qed.
Lemma types_are g l : Forall proper l ->
  each_type (type_ g) l =
  Some (flat_map type_calls (map (erlang_type (generator_variable g) (current_module g)) l)).
Proof.
  intro W. apply each_type_calls; [|now apply each_Forall]. apply Forall_forall. intros t _. apply type_is.
Qed.

(** ** Variables in Erlang types *)

Lemma sum_map_ext {A} (f g : A -> nat) l : Forall (fun a => f a = g a) l -> list_sum (map f l) = list_sum (map g l).
Proof. induction 1 as [|a l H F IH]; [reflexivity|]. cbn [map]. rewrite !sum_cons, H, IH. reflexivity. Qed.
Lemma sum_zero {A} (f : A -> nat) l : list_sum (map f l) = 0 <-> Forall (fun a => f a = 0) l.
Proof.
  induction l as [|a l IH]; [split; [constructor|reflexivity]|]. cbn [map]. rewrite sum_cons. split.
  - intro H. constructor; [lia|]. apply IH. lia.
  - inversion 1; subst. apply IH in H3. lia.
Qed.

(** [keep x] tells whether [x] stays a variable. *)
Lemma prelude_uses x n l : (simple_type n <> None /\ l = []) \/ (n = str "List" /\ length l = 1) \/
    (n = str "Result" /\ length l = 2) ->
  type_uses x (prelude_meaning n l) =
  (if text_eqb n (str "Result") then list_max else list_sum) (map (type_uses x) l).
Proof.
  intros [[B ->]|[[-> L]|[-> L]]].
  - unfold simple_type in B. cbn [simple_types map find fst] in B.
    repeat match type of B with
    | option_map _ (if text_eqb ?a n then _ else _) <> _ =>
        let E := fresh in destruct (text_eqb a n) eqn:E;
        [apply text_eqb_eq in E; subst n; reflexivity|]
    end. now contradiction B.
  - destruct l as [|a [|]]; try discriminate L. reflexivity.
  - destruct l as [|a [|b [|]]]; try discriminate L. cbn. lia.
Qed.

Section Variables.
Variable keep : N -> bool.
Definition kept (x : N) : tree := if keep x then YVar (id_to_type_var_str x) else any_type.

Lemma max_map_ext {A} (f g : A -> nat) l : Forall (fun a => f a = g a) l -> list_max (map f l) = list_max (map g l).
Proof. induction 1 as [|a l H F IH]; [reflexivity|]. cbn [map]. rewrite !max_cons, H, IH. reflexivity. Qed.

Lemma erlang_uses here x : forall t, proper t ->
  type_uses (id_to_type_var_str x) (erlang_type kept here t) = if keep x then uses x t else 0.
Proof.
  assert (All : forall l, Forall (fun t => proper t ->
      type_uses (id_to_type_var_str x) (erlang_type kept here t) = if keep x then uses x t else 0) l ->
    each proper l -> forall f, f = list_sum \/ f = list_max ->
    f (map (type_uses (id_to_type_var_str x)) (map (erlang_type kept here) l)) =
    if keep x then f (map (uses x) l) else 0).
  { intros l F W f Hf. apply each_Forall in W. rewrite map_map.
    assert (G : Forall (fun t => type_uses (id_to_type_var_str x) (erlang_type kept here t) =
      if keep x then uses x t else 0) l).
    { apply Forall_forall. intros t I. rewrite Forall_forall in F, W. apply F; auto. }
    destruct (keep x).
    - destruct Hf as [->| ->]; [apply sum_map_ext|apply max_map_ext]; exact G.
    - destruct Hf as [->| ->].
      + apply sum_zero. exact G.
      + clear F W. induction G as [|t l H G IH]; [reflexivity|]. cbn [map]. rewrite max_cons, H, IH. reflexivity. }
  intro t. pattern t. apply gtype_rect'; clear t.
  - intros y _. cbn [erlang_type uses]. unfold kept. destruct (keep y) eqn:E.
    + cbn [type_uses]. rewrite name_eqb. destruct (x =? y)%N eqn:E2.
      * apply N.eqb_eq in E2. subst. rewrite E. reflexivity.
      * destruct (keep x); reflexivity.
    + destruct (x =? y)%N eqn:E2.
      * apply N.eqb_eq in E2. subst. rewrite E. reflexivity.
      * destruct (keep x); reflexivity.
  - intros t H W. exact (H W).
  - intros m n l F [W A]. cbn [erlang_type uses]. specialize (All l F W).
    destruct (text_eqb m (str "gleam")) eqn:E; cbn [andb].
    + specialize (A eq_refl). rewrite prelude_uses.
      * destruct (text_eqb n (str "Result")); apply All; auto.
      * rewrite map_length. destruct A as [[B ->]|A]; [left; split; [exact B|reflexivity]|right; exact A].
    + destruct (text_eqb m here); cbn [type_uses]; apply All; auto.
  - intros l r F H [W1 W2]. cbn [erlang_type type_uses uses]. rewrite (All l F W1 list_sum), (H W2) by auto.
    destruct (keep x); reflexivity.
  - intros l F W. cbn [erlang_type type_uses uses]. apply All; auto.
Qed.

(** No other variables. *)
Lemma erlang_names here y : forall t, proper t -> type_uses y (erlang_type kept here t) <> 0 ->
  exists x, y = id_to_type_var_str x.
Proof.
  assert (Sum : forall l, list_sum l <> 0 -> exists a, In a l /\ a <> 0).
  { induction l as [|a l IH]; intro H; [now contradiction H|]. rewrite sum_cons in H.
    destruct a as [|a]; [|exists (S a); split; [now left|discriminate]].
    destruct (IH H) as (b & I & B). exists b. split; [now right|exact B]. }
  assert (Max : forall l, list_max l <> 0 -> list_sum l <> 0).
  { induction l as [|a l IH]; intro H; [exact H|]. rewrite max_cons in H. rewrite sum_cons.
    destruct a; [|lia]. apply IH. exact H. }
  assert (All : forall l, Forall (fun t => proper t -> type_uses y (erlang_type kept here t) <> 0 ->
      exists x, y = id_to_type_var_str x) l -> each proper l ->
    list_sum (map (type_uses y) (map (erlang_type kept here) l)) <> 0 -> exists x, y = id_to_type_var_str x).
  { intros l F W H. apply Sum in H as (a & I & H). rewrite map_map in I. apply in_map_iff in I as (t & <- & I).
    apply each_Forall in W. rewrite Forall_forall in F, W. apply (F t I (W t I) H). }
  intro t. pattern t. apply gtype_rect'; clear t.
  - intros x _. cbn [erlang_type]. unfold kept. destruct (keep x); cbn; [|now intros []].
    destruct (text_eqb y _) eqn:E; [|now intros []]. apply text_eqb_eq in E. eauto.
  - intros t H W. exact (H W).
  - intros m n l F [W A]. cbn [erlang_type]. specialize (All l F W).
    destruct (text_eqb m (str "gleam")) eqn:E.
    + specialize (A eq_refl). rewrite prelude_uses.
      * destruct (text_eqb n (str "Result")); [|exact All]. intro H. apply All, Max, H.
      * rewrite map_length. destruct A as [[B ->]|A]; [left; split; [exact B|reflexivity]|right; exact A].
    + destruct (text_eqb m here); cbn [type_uses]; exact All.
  - intros l r F H [W1 W2]. cbn [erlang_type type_uses]. intro U.
    destruct (Nat.eq_dec (type_uses y (erlang_type kept here r)) 0) as [Z|Z]; [|exact (H W2 Z)].
    apply (All l F W1). lia.
  - intros l F W. cbn [erlang_type type_uses]. exact (All l F W).
Qed.
End Variables.

(** ** What may be built *)

Lemma snake_atom n : valid_upname n = true -> atom_name (to_snake_case n) = true.
Proof.
  intro H. destruct (upname_words n H) as (ws & L & <-). rewrite (snake_of_words ws L). unfold atom_name.
  clear H. induction L as [|w ws [U F] L IH]; [reflexivity|].
  assert (G : forall r, forallb (fun c => negb ((c =? 39) || (c =? 92))%N) r = true ->
    forallb (fun c => negb ((c =? 39) || (c =? 92))%N) ((fst w + 32)%N :: snd w ++ r) = true).
  { intros r R. cbn [forallb]. rewrite forallb_app, R, andb_true_r. apply andb_true_iff. split.
    - unfold is_upper in U. lia.
    - apply forallb_forall. intros c I. rewrite Forall_forall in F. apply F in I.
      unfold is_lower, is_digit in I. lia. }
  destruct ws as [|w' ws].
  - cbn [snake]. specialize (G [] eq_refl). rewrite app_nil_r in G. exact G.
  - change (snake (w :: w' :: ws)) with ((fst w + 32)%N :: snd w ++ 95%N :: snake (w' :: ws)).
    apply G. cbn [forallb]. exact IH.
Qed.
Lemma name_atom n : valid_upname n = true -> atom_name (erlang_name n) = true.
Proof.
  intro H. apply snake_atom in H. unfold erlang_name. destruct (_ && _); [|exact H].
  unfold atom_name in *. rewrite forallb_app, H. reflexivity.
Qed.
Lemma module_atom m : atom_name m = true -> atom_name (erlang_module_name m) = true.
Proof.
  unfold atom_name, erlang_module_name. induction m as [|c m IH]; [reflexivity|]. cbn [forallb map].
  intro H. apply andb_true_iff in H as [A B]. rewrite (IH B), andb_true_r.
  destruct (c =? 47)%N; [reflexivity|exact A].
Qed.

Lemma simple_wf n t : simple_type n = Some t -> type_wf t.
Proof.
  unfold simple_type. cbn [simple_types map find fst].
  repeat match goal with
  | |- option_map _ (if ?b then _ else _) = _ -> _ =>
      destruct b; [intro H; injection H as <-; cbn; tauto|]
  end. discriminate.
Qed.
Lemma legal_wf v here : (forall x, type_wf (v x)) -> forall t, legal t -> type_wf (erlang_type v here t).
Proof.
  intro V.
  assert (All : forall l, Forall (fun t => legal t -> type_wf (erlang_type v here t)) l -> each legal l ->
    each type_wf (map (erlang_type v here) l)).
  { intros l F W. apply each_Forall in W. apply each_Forall, Forall_forall. intros y I.
    apply in_map_iff in I as (t & <- & I). rewrite Forall_forall in F, W. auto. }
  intro t. pattern t. apply gtype_rect'; clear t.
  - intros x _. apply V.
  - intros t H L. exact (H L).
  - intros m n l F (N & M & L). specialize (All l F L). cbn [erlang_type].
    destruct (text_eqb m (str "gleam")).
    + unfold prelude_meaning. destruct (simple_type n) eqn:E; [eapply simple_wf, E|].
      destruct (map _ l) as [|a [|b [|]]]; try (cbn; tauto).
      * cbn. destruct All as [A _]. auto.
      * cbn. destruct All as (A & B & _). repeat split; try assumption. discriminate.
    + destruct (text_eqb m here); cbn [type_wf]; repeat split; auto using name_atom, module_atom.
  - intros l r F H [W1 W2]. cbn [erlang_type type_wf]. split; auto.
  - intros l F W. cbn [erlang_type type_wf]. auto.
Qed.
