From Coq Require Import String NArith List Bool Lia ZArith ZifyBool ZifyN ZifyNat Sorted Permutation.
From Verif Require Import Text TextProofs Strings ErlangSource ErlangSourceSpec
  ErlangTypes ErlangTypesSpec ErlangTypesProofs.
Import ListNotations.
Local Open Scope nat_scope.
Local Open Scope list_scope.

Lemma erlang_type_ext v w here t : (forall x, v x = w x) -> erlang_type v here t = erlang_type w here t.
Proof.
  intro E. revert t.
  assert (All : forall l, Forall (fun t => erlang_type v here t = erlang_type w here t) l ->
    map (erlang_type v here) l = map (erlang_type w here) l).
  { induction 1 as [|t l H F IH]; [reflexivity|]. cbn [map]. rewrite H, IH. reflexivity. }
  intro t. pattern t. apply gtype_rect'; clear t.
  - intro x. apply E.
  - intros t H. exact H.
  - intros m n l F. cbn [erlang_type]. rewrite (All l F). reflexivity.
  - intros l r F H. cbn [erlang_type]. rewrite (All l F), H. reflexivity.
  - intros l F. cbn [erlang_type]. rewrite (All l F). reflexivity.
Qed.

(** ** Specifications *)

Lemma used_once_is g u id : var_usages g = Some u -> used_exactly_once g id = (count id u =? 1)%N.
Proof. intro H. unfold used_exactly_once, count. rewrite H. destruct (usage id u); reflexivity. Qed.

Lemma spec_is module name arguments return_ : Forall proper arguments -> proper return_ ->
  let v := spec_variable (arguments ++ [return_]) in
  function_spec_attribute module name arguments return_ =
  Some (top_calls (Spec name (map (erlang_type v module) arguments) (erlang_type v module return_))).
Proof.
  intros WA WR v. unfold function_spec_attribute.
  set (u := collect_type_var_usages [] (arguments ++ [return_])).
  set (g := TypeGenerator false (Some u) module).
  assert (V : forall x, generator_variable g x = v x).
  { intro x. unfold generator_variable, v, spec_variable. cbn [var_as_any g orb].
    rewrite (used_once_is g u x eq_refl). unfold u.
    destruct (collects_new (arguments ++ [return_])) as [_ C].
    { apply Forall_app. split; [exact WA|constructor; [exact WR|constructor]]. }
    rewrite C. fold (total_uses x (arguments ++ [return_])).
    destruct (total_uses x _ =? 1) eqn:E, (N.of_nat (total_uses x _) =? 1)%N eqn:E2; try reflexivity; lia. }
  rewrite (types_are g arguments WA), (type_is g return_ WR). cbn [current_module g].
  rewrite (map_ext _ _ (fun t => erlang_type_ext _ _ module t V)).
  rewrite (erlang_type_ext _ _ module return_ V).
  cbn [top_calls type_calls]. rewrite map_length. f_equal. cbn [app]. rewrite <- !app_assoc. cbn [app].
  rewrite <- !app_assoc. reflexivity.
Qed.

Lemma spec_variable_wf l x : type_wf (spec_variable l x).
Proof. unfold spec_variable. destruct (_ =? 1); cbn; [tauto|apply name_is_variable]. Qed.

(** No variable is used only once. *)
Lemma spec_uses module arguments return_ y : Forall proper arguments -> proper return_ ->
  let v := spec_variable (arguments ++ [return_]) in
  type_uses y (YFun (map (erlang_type v module) arguments) (erlang_type v module return_)) <> 1.
Proof.
  intros WA WR v U.
  set (keep := fun x => negb (total_uses x (arguments ++ [return_]) =? 1)).
  assert (V : forall x, v x = kept keep x).
  { intro x. unfold v, spec_variable, kept, keep. destruct (_ =? 1); reflexivity. }
  rewrite (map_ext _ _ (fun t => erlang_type_ext _ _ module t V)) in U.
  rewrite (erlang_type_ext _ _ module return_ V) in U.
  assert (W : proper (GFn arguments return_)) by (split; [apply each_Forall|]; assumption).
  change (type_uses y (erlang_type (kept keep) module (GFn arguments return_)) = 1) in U.
  destruct (erlang_names keep module y (GFn arguments return_) W) as (x & ->); [rewrite U; discriminate|].
  rewrite (erlang_uses keep module x _ W) in U. unfold keep in U.
  assert (T : total_uses x (arguments ++ [return_]) = uses x (GFn arguments return_)).
  { unfold total_uses. cbn [uses]. rewrite map_app, list_sum_app. cbn [map]. rewrite sum_cons. change (list_sum []) with 0. lia. }
  rewrite T in U. destruct (uses x _ =? 1) eqn:E; cbn [negb] in U; lia.
Qed.

(** ** Definitions *)

Lemma parameter_uses t x : parameter t = Some x -> proper t /\ forall k, uses k t = if (k =? x)%N then 1 else 0.
Proof.
  induction t as [y|t IH| | |]; intro H; try discriminate H.
  - injection H as ->. split; [exact I|reflexivity].
  - exact (IH H).
Qed.
Lemma parameter_name t x : parameter t = Some x -> type_parameter_name t = Some (id_to_type_var_str x).
Proof.
  induction t as [y|t IH| | |]; intro H; try discriminate H.
  - injection H as ->. reflexivity.
  - exact (IH H).
Qed.
Lemma parameter_names l : forall ps, map parameter l = map Some ps ->
  type_parameter_names l = Some (map id_to_type_var_str ps).
Proof.
  induction l as [|t l IH]; intros [|x ps] H; try discriminate H; [reflexivity|].
  injection H as H1 H2. cbn [type_parameter_names]. rewrite (parameter_name t x H1), (IH ps H2). reflexivity.
Qed.

Lemma parameters_proper l : forall ps, map parameter l = map Some ps ->
  Forall proper l /\ forall k, list_sum (map (uses k) l) <> 0 <-> In k ps.
Proof.
  induction l as [|t l IH]; intros [|x ps] H; try discriminate H.
  - split; [constructor|]. intro k. cbn. split; [intro N; now contradiction N|tauto].
  - injection H as H1 H2. destruct (parameter_uses t x H1) as [P U]. destruct (IH ps H2) as [PS US].
    split; [constructor; assumption|]. intro k. cbn [map In]. rewrite sum_cons, U.
    specialize (US k). destruct (k =? x)%N eqn:E.
    + split; [intro; left; lia|lia].
    + split; [intro; right; apply US; lia|]. intros [X|X]; [lia|]. apply US in X. lia.
Qed.

Definition constructor_usages (l : list (text * list gtype)) : usages :=
  fold_left (fun ids c => collect_type_var_usages ids (snd c)) l [].
Lemma constructor_keys l : (forall n ts t, In (n, ts) l -> In t ts -> proper t) ->
  forall k, In k (map fst (constructor_usages l)) <->
    exists n ts t, In (n, ts) l /\ In t ts /\ uses k t <> 0.
Proof.
  intro W. unfold constructor_usages.
  assert (G : forall ids, sound ids ->
    let r := fold_left (fun ids c => collect_type_var_usages ids (snd c)) l ids in
    sound r /\ forall k, (1 <= count k r)%N <-> (1 <= count k ids)%N \/
      exists n ts t, In (n, ts) l /\ In t ts /\ uses k t <> 0).
  { induction l as [|[n ts] l IH]; intros ids S.
    - split; [exact S|]. intro k. cbn. split; [now left|]. intros [H|(? & ? & ? & [] & _)]. exact H.
    - cbn [fold_left snd].
      assert (P : Forall proper ts).
      { apply Forall_forall. intros t I. apply (W n ts t); [now left|exact I]. }
      destruct (collects ts P ids S) as [S1 C1].
      destruct (IH (fun n ts t I => W n ts t (or_intror I)) _ S1) as [S2 C2].
      split; [exact S2|]. intro k. rewrite C2, C1.
      assert (Z : list_sum (map (uses k) ts) <> 0 <-> exists t, In t ts /\ uses k t <> 0).
      { clear. induction ts as [|t ts IH]; cbn [map].
        - split; [intro H; now contradiction H|intros (t & [] & _)].
        - rewrite sum_cons. split.
          + intro H. destruct (Nat.eq_dec (uses k t) 0) as [E|E].
            * destruct IH as [IH _]. destruct IH as (t' & I & U); [lia|]. exists t'. split; [now right|exact U].
            * exists t. split; [now left|exact E].
          + intros (t' & [->|I] & U); [lia|]. destruct IH as [_ IH]. specialize (IH (ex_intro _ t' (conj I U))). lia. }
      split.
      + intros [H|(n' & ts' & t & I & H)].
        * destruct (Nat.eq_dec (list_sum (map (uses k) ts)) 0) as [E|E]; [left; lia|].
          apply Z in E as (t & I & U). right. exists n, ts, t. split; [now left|tauto].
        * right. exists n', ts', t. split; [now right|exact H].
      + intros [H|(n' & ts' & t & [I|I] & H)].
        * left. lia.
        * injection I as <- <-. left. assert (list_sum (map (uses k) ts) <> 0); [apply Z; eauto|lia].
        * right. exists n', ts', t. split; [exact I|exact H]. }
  intro k. assert (S0 : sound []) by (split; constructor).
  destruct (G [] S0) as [S C]. rewrite (count_key k _ S), C. cbn. split; [intros [H|H]; [lia|exact H]|now right].
Qed.

Lemma insert_perm a l : Permutation (insert_sorted a l) (a :: l).
Proof.
  induction l as [|b l IH]; cbn; [reflexivity|]. destruct (text_leb a b); [reflexivity|].
  rewrite IH. apply perm_swap.
Qed.
Lemma sorted_perm l : Permutation (sorted l) l.
Proof. induction l as [|a l IH]; cbn; [constructor|]. rewrite insert_perm. constructor. exact IH. Qed.

Lemma text_leb_total a : forall b, text_leb a b = false -> text_leb b a = true.
Proof.
  induction a as [|x a IH]; intros [|y b] H; try discriminate H; [reflexivity|].
  cbn [text_leb] in *. rewrite N.eqb_sym. destruct (x =? y)%N eqn:E; [apply IH, H|]. lia.
Qed.
Lemma text_leb_trans a : forall b c, text_leb a b = true -> text_leb b c = true -> text_leb a c = true.
Proof.
  induction a as [|x a IH]; intros [|y b] [|z c] H G; try discriminate; try reflexivity.
  cbn [text_leb] in *. destruct (x =? y)%N eqn:E1, (y =? z)%N eqn:E2.
  - replace (x =? z)%N with true by lia. eapply IH; eauto.
  - replace (x =? z)%N with false by lia. lia.
  - replace (x =? z)%N with false by lia. lia.
  - replace (x =? z)%N with false by lia. lia.
Qed.
Lemma text_leb_antisym a : forall b, text_leb a b = true -> text_leb b a = true -> a = b.
Proof.
  induction a as [|x a IH]; intros [|y b] H G; try discriminate; [reflexivity|].
  cbn [text_leb] in *. rewrite N.eqb_sym in G. destruct (x =? y)%N eqn:E.
  - apply N.eqb_eq in E. subst. f_equal. apply IH; assumption.
  - lia.
Qed.
Definition in_order : list text -> Prop := StronglySorted (fun a b => text_leb a b = true).
Lemma insert_order a l : in_order l -> in_order (insert_sorted a l).
Proof.
  induction 1 as [|b l S IH F]; cbn; [repeat constructor|]. destruct (text_leb a b) eqn:E.
  - constructor; [constructor; assumption|]. constructor; [exact E|].
    eapply Forall_impl; [|exact F]. intros c H. eapply text_leb_trans; eauto.
  - constructor; [exact IH|]. apply text_leb_total in E.
    eapply Permutation_Forall; [symmetry; apply insert_perm|]. constructor; assumption.
Qed.
Lemma sorted_order l : in_order (sorted l).
Proof. induction l as [|a l IH]; cbn; [constructor|]. apply insert_order, IH. Qed.
Lemma sorted_same l : in_order l -> sorted l = l.
Proof.
  induction 1 as [|a l S IH F]; [reflexivity|]. change (sorted (a :: l)) with (insert_sorted a (sorted l)). rewrite IH. destruct l as [|b l]; [reflexivity|].
  cbn. inversion_clear F as [|? ? H _]. rewrite H. reflexivity.
Qed.

Lemma removed rs : forall ids k,
  In k (map fst (fold_left (fun ids id => remove id ids) rs ids)) <-> In k (map fst ids) /\ ~ In k rs.
Proof.
  induction rs as [|r rs IH]; intros ids k; cbn [fold_left In]; [tauto|]. rewrite IH.
  assert (G : In k (map fst (remove r ids)) <-> In k (map fst ids) /\ k <> r).
  { unfold remove. rewrite !in_map_iff. split.
    - intros ([i n] & <- & I). apply filter_In in I as [I E]. split; [exists (i, n); auto|]. cbn. lia.
    - intros [([i n] & <- & I) N]. exists (i, n). split; [reflexivity|]. apply filter_In. split; [exact I|].
      cbn in N. lia. }
  rewrite G. intuition.
Qed.
Lemma remove_NoDup rs : forall ids, NoDup (map fst ids) ->
  NoDup (map fst (fold_left (fun ids id => remove id ids) rs ids)).
Proof.
  induction rs as [|r rs IH]; intros ids D; [exact D|]. cbn [fold_left]. apply IH. clear IH.
  unfold remove. induction ids as [|[i n] ids IH]; [constructor|]. cbn [map fst] in D.
  inversion_clear D as [|? ? NI D']. cbn [filter]. destruct (negb _); [|apply IH, D'].
  cbn [map fst]. constructor; [|apply IH, D']. intro I. apply NI. apply in_map_iff in I as (p & E & I).
  apply filter_In in I as [I _]. apply in_map_iff. eauto.
Qed.

Lemma phantoms c ps : proper_definition c ps ->
  (forall n, In n (phantom_type_variables c) <-> exists x, n = id_to_type_var_str x /\ phantom c x) /\
  NoDup (phantom_type_variables c) /\ in_order (phantom_type_variables c) /\
  forall x, In x ps -> In (id_to_type_var_str x) (phantom_type_variables c) \/
    exists n l t, In (n, l) (ct_constructors c) /\ In t l /\ uses x t <> 0.
Proof.
  intros (E & D & W). unfold phantom_type_variables. fold (constructor_usages (ct_constructors c)).
  destruct (parameters_proper _ _ E) as [P U]. destruct (collects_new _ P) as [S C].
  set (ids := fold_left _ (map fst (constructor_usages _)) _).
  assert (CK := constructor_keys (ct_constructors c) (fun n l t I J => proj1 (W n l t I J))).
  assert (K : forall k, In k (map fst ids) <->
    In k ps /\ ~ exists n l t, In (n, l) (ct_constructors c) /\ In t l /\ uses k t <> 0).
  { intro k. unfold ids. rewrite removed, CK, (count_key k _ S), C, <- (U k).
    assert (forall n, (1 <= N.of_nat n)%N <-> n <> 0) by lia. rewrite H. tauto. }
  assert (PH : forall k, In k (map fst ids) <-> phantom c k).
  { intro k. rewrite K. unfold phantom. split.
    - intros [I N]. split.
      + assert (X : In (Some k) (map parameter (ct_parameters c))) by (rewrite E; apply in_map, I).
        apply in_map_iff in X as (t & Ht & X). eauto.
      + intros n l t I1 I2. destruct (Nat.eq_dec (uses k t) 0) as [Z|Z]; [exact Z|].
        exfalso. apply N. eauto 7.
    - intros [(t & I & Ht) N]. split.
      + apply (in_map parameter) in I. rewrite Ht, E in I. apply in_map_iff in I as (x & X & I).
        injection X as <-. exact I.
      + intros (n & l & t' & I1 & I2 & Z). apply Z. eapply N; eauto. }
  split; [|split; [|split]].
  - intro n. split.
    + intro I. eapply Permutation_in in I; [|apply sorted_perm]. apply in_map_iff in I as (x & <- & I).
      exists x. split; [reflexivity|]. apply PH, I.
    + intros (x & -> & I). eapply Permutation_in; [symmetry; apply sorted_perm|]. apply in_map, PH, I.
  - eapply Permutation_NoDup; [symmetry; apply sorted_perm|].
    assert (ND : NoDup (map fst ids)) by (apply remove_NoDup, S).
    clear - ND. induction ND as [|x l NI ND IH]; cbn; constructor; [|exact IH].
    intro I. apply in_map_iff in I as (y & H & I). apply name_inj in H. congruence.
  - apply sorted_order.
  - intros x I. destruct (in_dec N.eq_dec x (map fst (constructor_usages (ct_constructors c)))) as [J|J].
    + right. apply CK, J.
    + left. eapply Permutation_in; [symmetry; apply sorted_perm|]. apply in_map, K. split; [exact I|].
      intro X. apply J, CK, X.
Qed.

Definition variable_of (x : N) : tree := YVar (id_to_type_var_str x).
Lemma plain_variable here t :
  erlang_type (generator_variable (TypeGenerator false None here)) here t = erlang_type variable_of here t.
Proof. apply erlang_type_ext. reflexivity. Qed.

Lemma constructor_is here c : Forall proper (snd c) ->
  constructor_type here c = Some (type_calls (constructor_meaning here c)).
Proof.
  intro W. unfold constructor_type, constructor_meaning. destruct c as [n [|t l]]; [reflexivity|].
  cbn [snd fst] in *. rewrite (types_are (TypeGenerator false None here) _ W). cbn [current_module].
  rewrite (map_ext _ _ (plain_variable here)). reflexivity.
Qed.
Lemma constructors_are here l : Forall (fun c => Forall proper (snd c)) l ->
  constructor_types here l = Some (flat_map type_calls (map (constructor_meaning here) l)).
Proof.
  induction 1 as [|c l W F IH]; [reflexivity|]. cbn [constructor_types map flat_map].
  rewrite (constructor_is here c W), IH. reflexivity.
Qed.
Lemma variables_are l : map type_variable l = flat_map type_calls (map YVar l).
Proof. induction l as [|x l IH]; [reflexivity|]. cbn. rewrite IH. reflexivity. Qed.

Lemma definition_is here c ps : proper_definition c ps ->
  type_definition here c = Some (top_calls
    (TypeDefinition_ (ct_opaque c) (erlang_name (ct_name c)) (map id_to_type_var_str ps)
       (definition_meaning here c (phantom_type_variables c)))).
Proof.
  intros (E & D & W). unfold type_definition, definition_meaning.
  rewrite (parameter_names _ _ E), safe_name.
  set (ph := phantom_type_variables c). clearbody ph.
  assert (P : Forall (fun k => Forall proper (snd k)) (ct_constructors c)).
  { apply Forall_forall. intros [n l] I. apply Forall_forall. intros t J. apply (W n l t I J). }
  assert (PT : forall ph', phantom_type ph' = type_calls (YTuple (YAtom (str "gleam_phantom") :: map YVar ph'))).
  { intro ph'. unfold phantom_type. rewrite variables_are. reflexivity. }
  assert (U : forall l, ct_constructors c = l -> ph <> [] \/ (2 <= length l) -> l <> [] ->
    type_calls (one_or_union (map (constructor_meaning here) l ++ unused_type ph)) =
    [start_union_type] ++ flat_map type_calls (map (constructor_meaning here) l) ++
      match ph with [] => [] | _ => phantom_type ph end ++ [end_union_type]).
  { intros l _ H N. destruct ph as [|x ph].
    - cbn [unused_type]. rewrite app_nil_r. destruct l as [|a [|b l]]; [now contradiction N|destruct H; cbn in *; [congruence|lia]|].
      reflexivity.
    - cbn [unused_type]. rewrite PT. replace (one_or_union _) with
        (YUnion (map (constructor_meaning here) l ++ [YTuple (YAtom (str "gleam_phantom") :: map YVar (x :: ph))])).
      + generalize (YTuple (YAtom (str "gleam_phantom") :: map YVar (x :: ph))). intro z.
        cbn [type_calls]. rewrite flat_map_app. cbn [flat_map]. rewrite app_nil_r, <- !app_assoc. reflexivity.
      + destruct l as [|a [|b l]]; [now contradiction N|reflexivity|reflexivity]. }
  destruct (ct_constructors c) as [|k [|k' l]] eqn:CS.
  - destruct (ct_external c) as [[m t]|].
    + rewrite variables_are. reflexivity.
    + destruct ph as [|x ph]; [reflexivity|]. rewrite PT. cbn [unused_type one_or_union top_calls type_calls flat_map].
      rewrite app_nil_r. reflexivity.
  - destruct ph as [|x ph].
    + inversion_clear P as [|? ? P' _]. rewrite (constructor_is here k P'). destruct (ct_external c) as [[]|]; reflexivity.
    + assert (H1 : x :: ph <> [] \/ 2 <= length [k]) by (left; discriminate).
      assert (H2 : [k] <> []) by discriminate. pose proof (U [k] eq_refl H1 H2) as U'.
      rewrite (constructors_are here _ P). cbn [top_calls].
      match goal with |- context [type_calls ?a] => change (type_calls a) with (type_calls (one_or_union (map (constructor_meaning here) [k] ++ unused_type (x :: ph)))) end.
      rewrite U'. destruct (ct_external c) as [[]|]; reflexivity.
  - assert (H1 : ph <> [] \/ 2 <= length (k :: k' :: l)) by (right; cbn; lia).
    assert (H2 : k :: k' :: l <> []) by discriminate. pose proof (U (k :: k' :: l) eq_refl H1 H2) as U'.
    rewrite (constructors_are here _ P). cbn [top_calls]. rewrite U'.
    destruct (ct_external c) as [[]|]; reflexivity.
Qed.

Lemma type_uses_variables y l : list_sum (map (type_uses y) (map YVar l)) <> 0 <-> In y l.
Proof.
  induction l as [|x l IH]; cbn [map]; [split; [intro H; now contradiction H|intros []]|].
  rewrite sum_cons. cbn [type_uses In]. destruct (text_eqb y x) eqn:E.
  - apply text_eqb_eq in E. split; [now left|lia].
  - apply text_eqb_neq in E. cbn. rewrite IH. intuition congruence.
Qed.
Lemma max_zero l : list_max l <> 0 <-> list_sum l <> 0.
Proof. induction l as [|a l IH]; [tauto|]. rewrite max_cons, sum_cons. destruct a; [exact IH|lia]. Qed.
Lemma sum_some {A} (f : A -> nat) l : list_sum (map f l) <> 0 <-> exists a, In a l /\ f a <> 0.
Proof.
  induction l as [|a l IH]; cbn [map In]; [split; [intro H; now contradiction H|intros (a & [] & _)]|].
  rewrite sum_cons. split.
  - intro H. destruct (Nat.eq_dec (f a) 0) as [E|E]; [|exists a; tauto].
    destruct IH as [IH _]. destruct IH as (b & I & U); [lia|]. exists b. tauto.
  - intros (b & [->|I] & U); [lia|]. destruct IH as [_ IH]. specialize (IH (ex_intro _ b (conj I U))). lia.
Qed.
Lemma union_uses y l : type_uses y (one_or_union l) <> 0 <-> exists t, In t l /\ type_uses y t <> 0.
Proof.
  rewrite <- sum_some. destruct l as [|t [|t' l]]; cbn [one_or_union].
  - reflexivity.
  - cbn [map]. rewrite sum_cons. change (list_sum []) with 0. rewrite Nat.add_0_r. reflexivity.
  - cbn [type_uses]. apply max_zero.
Qed.
Lemma unused_uses y l : (exists t, In t (unused_type l) /\ type_uses y t <> 0) <-> In y l.
Proof.
  destruct l as [|x l]; [split; [intros (? & [] & _)|intros []]|]. cbn [unused_type].
  rewrite <- (type_uses_variables y (x :: l)). split.
  - intros (t & [<-|[]] & U). cbn [type_uses map] in U. rewrite sum_cons in U. exact U.
  - intro U. eexists. split; [now left|]. cbn [type_uses map]. rewrite sum_cons. exact U.
Qed.
Lemma constructor_uses here c y : Forall proper (snd c) ->
  type_uses y (constructor_meaning here c) <> 0 <->
  exists x t, y = id_to_type_var_str x /\ In t (snd c) /\ uses x t <> 0.
Proof.
  intro W. unfold constructor_meaning. destruct c as [n [|t0 l0]]; cbn [snd fst] in *.
  - split; [intro H; now contradiction H|intros (x & t & _ & [] & _)].
  - set (l := t0 :: l0) in *. clearbody l. cbn [type_uses map]. rewrite sum_cons. cbn [type_uses Nat.add].
    rewrite map_map, sum_some. rewrite Forall_forall in W. split.
    + intros (t & I & U). change (erlang_type _ here t) with (erlang_type (kept (fun _ => true)) here t) in U.
      destruct (erlang_names _ here y t (W t I) U) as (x & ->). exists x, t. repeat split; [exact I|].
      rewrite erlang_uses in U by auto. exact U.
    + intros (x & t & -> & I & U). exists t. split; [exact I|].
      change (erlang_type _ here t) with (erlang_type (kept (fun _ => true)) here t).
      rewrite erlang_uses by auto. exact U.
Qed.

(** Every parameter is used, and nothing else. *)
Lemma definition_uses here c ps y : proper_definition c ps ->
  type_uses y (definition_meaning here c (phantom_type_variables c)) <> 0 <->
  In y (map id_to_type_var_str ps).
Proof.
  intro PD. destruct (phantoms c ps PD) as (PH & _ & _ & CV). destruct PD as (E & D & W).
  assert (P : forall k, In k (ct_constructors c) -> Forall proper (snd k)).
  { intros [n l] I. apply Forall_forall. intros t J. apply (W n l t I J). }
  assert (PP : forall y, In y (phantom_type_variables c) -> In y (map id_to_type_var_str ps)).
  { intros z I. apply PH in I as (x & -> & (t & J & X) & _). apply in_map.
    apply (in_map parameter) in J. rewrite X, E in J. apply in_map_iff in J as (x' & Q & J). injection Q as <-. exact J. }
  assert (G : (exists k, In k (ct_constructors c) /\ type_uses y (constructor_meaning here k) <> 0) \/
      In y (phantom_type_variables c) <-> In y (map id_to_type_var_str ps)).
  { split.
    - intros [(k & I & U)|I]; [|apply PP, I]. apply constructor_uses in U; [|apply P, I].
      destruct U as (x & t & -> & J & U). apply in_map. destruct k as [n l]. apply (W n l t I J), U.
    - intro I. apply in_map_iff in I as (x & <- & I). destruct (CV x I) as [J|(n & l & t & J & K & U)]; [now right|].
      left. exists (n, l). split; [exact J|]. apply constructor_uses; [apply P, J|]. exists x, t. auto. }
  rewrite <- G. unfold definition_meaning. destruct (ct_constructors c) as [|k l] eqn:CS.
  - assert (NE : forall Q : Prop, (exists k : text * list gtype, In k [] /\ type_uses y (constructor_meaning here k) <> 0) \/ Q <-> Q).
    { intro Q. split; [intros [(k & [] & _)|H]; exact H|now right]. }
    rewrite NE. destruct (ct_external c) as [[m t]|].
    + cbn [type_uses]. apply type_uses_variables.
    + rewrite union_uses, <- unused_uses. cbn [In]. split.
      * intros (t & [<-|I] & U); [now contradiction U|eauto].
      * intros (t & I & U). eauto.
  - rewrite union_uses, <- unused_uses.
    assert (X : (exists t, In t (map (constructor_meaning here) (k :: l) ++ unused_type (phantom_type_variables c)) /\ type_uses y t <> 0) <->
      (exists k0, In k0 (k :: l) /\ type_uses y (constructor_meaning here k0) <> 0) \/
      (exists t, In t (unused_type (phantom_type_variables c)) /\ type_uses y t <> 0)).
    { split.
      - intros (t & I & U). apply in_app_iff in I as [I|I]; [|right; eauto].
        apply in_map_iff in I as (k0 & <- & I). left. eauto.
      - intros [(k0 & I & U)|(t & I & U)].
        + exists (constructor_meaning here k0). split; [|exact U]. apply in_app_iff. left. now apply in_map.
        + exists t. split; [|exact U]. apply in_app_iff. now right. }
    exact X.
Qed.

(** ** Reading *)

Lemma variable_of_wf x : type_wf (variable_of x).
Proof. apply name_is_variable. Qed.
Lemma constructor_wf here c : valid_upname (fst c) = true -> each legal (snd c) -> type_wf (constructor_meaning here c).
Proof.
  intros N L. unfold constructor_meaning. apply snake_atom in N. destruct (snd c) as [|t l]; [exact N|].
  cbn [type_wf]. split; [exact N|]. apply each_Forall in L. apply each_Forall, Forall_forall.
  intros y I. change (fun x => YVar (id_to_type_var_str x)) with variable_of in I.
  apply in_map_iff in I as (t' & <- & I). rewrite Forall_forall in L. apply legal_wf; [apply variable_of_wf|auto].
Qed.
Lemma definition_wf here c ps : proper_definition c ps -> legal_definition c ->
  top_wf (TypeDefinition_ (ct_opaque c) (erlang_name (ct_name c)) (map id_to_type_var_str ps)
       (definition_meaning here c (phantom_type_variables c))).
Proof.
  intros PD (N & L & X). destruct (phantoms c ps PD) as (PH & _).
  assert (VS : each type_wf (map YVar (phantom_type_variables c))).
  { apply each_Forall, Forall_forall. intros y I. apply in_map_iff in I as (n & <- & I).
    apply PH in I as (x & -> & _). apply variable_of_wf. }
  assert (US : Forall type_wf (unused_type (phantom_type_variables c))).
  { destruct (phantom_type_variables c) as [|n l]; [constructor|]. cbn [unused_type].
    constructor; [|constructor]. cbn [type_wf each]. split; [reflexivity|exact VS]. }
  assert (UW : forall l, l <> [] -> Forall type_wf l -> type_wf (one_or_union l)).
  { intros [|t [|t' l]] NE F; [now contradiction NE| |].
    - inversion_clear F. assumption.
    - cbn [one_or_union type_wf]. split; [discriminate|]. apply each_Forall, F. }
  cbn [top_wf]. split; [now apply name_atom|]. split.
  - apply forallb_forall. intros y I. apply in_map_iff in I as (x & <- & _). apply name_is_variable.
  - unfold definition_meaning. destruct (ct_constructors c) as [|k l] eqn:CS.
    + destruct (ct_external c) as [[m t]|].
      * cbn [type_wf]. destruct X as [M T]. auto using module_atom.
      * apply UW; [discriminate|]. constructor; [cbn; tauto|exact US].
    + apply UW; [discriminate|]. apply Forall_app. split; [|exact US].
      apply Forall_forall. intros y I. apply in_map_iff in I as ([n ts] & <- & I).
      destruct (L n ts I) as [A B]. now apply constructor_wf.
Qed.
