(** The names of variables in generated code. *)
From Coq Require Import String NArith ZArith List Bool Lia Permutation ZifyBool ZifyN ZifyNat.
From Verif Require Import Text TextProofs Strings StringsSpec Erl ErlangSource ErlangSourceSpec ErlangTypes
  ErlangSourceScan PackagesProofs ErlangCode ErlangRun ErlangCodeSpec ErlangCodeTree ErlangCodeCalls.
Import ListNotations.
Local Open Scope nat_scope.
Local Open Scope list_scope.

(** ** Names *)

Definition mk (x : text) (k : N) : text :=
  if (k =? 0)%N then ErlangCode.variable_name x else ErlangCode.variable_name x ++ [64%N] ++ decimal k.
Definition gen (k : N) : text := if (k =? 0)%N then str "_value" else str "_value@" ++ decimal k.

Lemma decimal_injective a b : decimal a = decimal b -> a = b.
Proof. intro H. rewrite <- (decimal_value_decimal a), <- (decimal_value_decimal b), H. reflexivity. Qed.
Lemma decimal_nonempty k : decimal k <> [].
Proof. destruct (decimal_head k) as (d & w & -> & _). discriminate. Qed.

(** What is before the first '@', and after. *)
Fixpoint before_at (t : text) : text :=
  match t with [] => [] | c :: t => if (c =? 64)%N then [] else c :: before_at t end.
Lemma before_at_app a b : forallb (fun c => negb (c =? 64)%N) a = true -> before_at (a ++ 64%N :: b) = a.
Proof. induction a as [|c a IH]; cbn; [reflexivity|]. destruct (c =? 64)%N; [discriminate|]. cbn. intro H. now rewrite IH. Qed.
Lemma before_at_all a : forallb (fun c => negb (c =? 64)%N) a = true -> before_at a = a.
Proof. induction a as [|c a IH]; cbn; [reflexivity|]. destruct (c =? 64)%N; [discriminate|]. cbn. intro H. now rewrite IH. Qed.

Lemma name_no_at x : forallb name_character x = true -> forallb (fun c => negb (c =? 64)%N) x = true.
Proof.
  rewrite ! forallb_forall. intros H c C. specialize (H c C). unfold name_character, is_lower, is_digit, underscore in H. lia.
Qed.
Lemma legal_shape x : valid_name x = true -> forallb name_character x = true /\
  exists c r, x = c :: r /\ (is_lower c = true \/ (c = 95%N /\ exists d r', r = d :: r' /\ is_lower d = true)).
Proof.
  unfold valid_name, valid_plain_name. destruct x as [|c x]; [discriminate|].
  intro H. apply orb_true_iff in H. destruct H as [H|H]; apply andb_true_iff in H; destruct H as [C H].
  - split; [|exists c, x; auto]. cbn [forallb]. rewrite H. unfold name_character. rewrite C. reflexivity.
  - destruct x as [|d x]; [discriminate|]. apply andb_true_iff in H. destruct H as [D H].
    apply N.eqb_eq in C. unfold underscore in C. subst c. split.
    + cbn [forallb]. rewrite H. unfold name_character. rewrite D. reflexivity.
    + exists 95%N, (d :: x). split; [reflexivity|]. right. eauto.
Qed.
Lemma upper_no_at x : valid_name x = true -> forallb (fun c => negb (c =? 64)%N) (ErlangCode.variable_name x) = true.
Proof.
  intro H. destruct (legal_shape x H) as (A & c & r & -> & S). apply name_no_at in A. cbn [forallb] in A. apply andb_true_iff in A.
  cbn [ErlangCode.variable_name forallb]. destruct A as [_ ->]. rewrite andb_true_r.
  unfold to_uppercase. destruct (is_lower c) eqn:L; unfold is_lower in L.
  - lia.
  - destruct S as [S|[-> _]]; [unfold is_lower in S; lia|reflexivity].
Qed.
Lemma mk_before x k : valid_name x = true -> before_at (mk x k) = ErlangCode.variable_name x.
Proof.
  intro H. unfold mk. destruct (k =? 0)%N; [apply before_at_all, upper_no_at, H|].
  apply before_at_app, upper_no_at, H.
Qed.
Lemma upper_injective x y : valid_name x = true -> valid_name y = true ->
  ErlangCode.variable_name x = ErlangCode.variable_name y -> x = y.
Proof.
  intros X Y. destruct (legal_shape x X) as (_ & c & r & -> & C), (legal_shape y Y) as (_ & d & q & -> & D).
  cbn [ErlangCode.variable_name]. intro E. injection E as E ->. f_equal.
  unfold to_uppercase, is_lower in *. destruct ((97 <=? c)%N && (c <=? 122)%N) eqn:C', ((97 <=? d)%N && (d <=? 122)%N) eqn:D'; lia.
Qed.
Lemma mk_injective x y j k : valid_name x = true -> valid_name y = true -> mk x j = mk y k -> x = y /\ j = k.
Proof.
  intros X Y E. assert (U : ErlangCode.variable_name x = ErlangCode.variable_name y).
  { rewrite <- (mk_before x j X), <- (mk_before y k Y), E. reflexivity. }
  split; [apply upper_injective; assumption|]. unfold mk in E. rewrite U in E.
  destruct (N.eqb_spec j 0), (N.eqb_spec k 0); subst; try reflexivity.
  - exfalso. rewrite <- (app_nil_r (ErlangCode.variable_name y)) in E at 1. apply app_inv_head in E. discriminate.
  - exfalso. symmetry in E. rewrite <- (app_nil_r (ErlangCode.variable_name y)) in E at 1. apply app_inv_head in E. discriminate.
  - apply app_inv_head in E. injection E as E. apply decimal_injective, E.
Qed.
Lemma gen_before k : before_at (gen k) = str "_value".
Proof. unfold gen. destruct (k =? 0)%N; reflexivity. Qed.
Lemma gen_injective j k : gen j = gen k -> j = k.
Proof.
  unfold gen. destruct (N.eqb_spec j 0), (N.eqb_spec k 0); subst; try reflexivity; intro E.
  - exfalso. change (str "_value@") with (str "_value" ++ [64%N]) in E. rewrite <- app_assoc, <- (app_nil_r (str "_value")) in E at 1.
    apply app_inv_head in E. discriminate.
  - exfalso. change (str "_value@") with (str "_value" ++ [64%N]) in E. symmetry in E. rewrite <- app_assoc, <- (app_nil_r (str "_value")) in E at 1.
    apply app_inv_head in E. discriminate.
  - apply app_inv_head, decimal_injective in E. exact E.
Qed.
Lemma mk_not_gen x j k : legal_name x -> mk x j <> gen k.
Proof.
  intros [X N] E. apply N. assert (U : ErlangCode.variable_name x = str "_value").
  { rewrite <- (mk_before x j X), E. apply gen_before. }
  destruct (legal_shape x X) as (_ & c & r & -> & C). cbn [ErlangCode.variable_name] in U. injection U as U ->.
  change (str "_value") with (95%N :: str "value"). f_equal.
  unfold to_uppercase, is_lower in *. destruct ((97 <=? c)%N && (c <=? 122)%N) eqn:C'; lia.
Qed.
Lemma mk_not_discard x k : valid_name x = true -> mk x k <> str "_".
Proof.
  intros X E. assert (U : ErlangCode.variable_name x = str "_").
  { rewrite <- (mk_before x k X), E. reflexivity. }
  destruct (legal_shape x X) as (_ & c & r & -> & C). cbn [ErlangCode.variable_name] in U. injection U as U ->.
  unfold to_uppercase, is_lower in *. destruct C as [C|(-> & d & r' & E' & _)]; [|discriminate].
  rewrite C in U. lia.
Qed.
Lemma gen_not_discard k : gen k <> str "_".
Proof. intro E. assert (U := gen_before k). rewrite E in U. discriminate. Qed.

Lemma mk_variable x k : valid_name x = true -> ErlangSourceSpec.variable_name (mk x k) = true.
Proof.
  intro X. destruct (legal_shape x X) as (A & c & r & -> & C).
  assert (T : forallb name_char r = true).
  { cbn [forallb] in A. apply andb_true_iff in A. destruct A as [_ A]. rewrite forallb_forall in *. intros d D. specialize (A d D).
    unfold name_character, name_char, is_alphanumeric, underscore in *. destruct (is_lower d), (is_digit d), (is_upper d); cbn in *; lia. }
  assert (H : is_upper (to_uppercase c) || (to_uppercase c =? 95)%N = true).
  { unfold to_uppercase. destruct (is_lower c) eqn:L; unfold is_lower, is_upper in *; [lia|]. destruct C as [C|[-> _]]; [lia|reflexivity]. }
  unfold mk. destruct (k =? 0)%N; cbn [ErlangCode.variable_name app ErlangSourceSpec.variable_name]; rewrite H; cbn [andb].
  - exact T.
  - rewrite forallb_app, T. cbn [forallb andb]. change (name_char 64) with true. cbn [andb].
    assert (D := decimal_forallb k). rewrite forallb_forall in *. intros d E. specialize (D d E).
    unfold name_char, is_alphanumeric. rewrite D. reflexivity.
Qed.
Lemma gen_variable k : ErlangSourceSpec.variable_name (gen k) = true.
Proof.
  unfold gen. destruct (k =? 0)%N; [reflexivity|].
  assert (D := decimal_forallb k). change (str "_value@" ++ decimal k) with (95%N :: (str "value@" ++ decimal k)).
  cbn [ErlangSourceSpec.variable_name]. rewrite forallb_app. apply andb_true_iff. split; [reflexivity|]. apply andb_true_iff. split; [reflexivity|].
  rewrite forallb_forall in *. intros d E. specialize (D d E). unfold name_char, is_alphanumeric. rewrite D. reflexivity.
Qed.

(** ** States *)

Definition count (s : state) (x : text) : N :=
  match get x (taken_names s) with Some i => (i + 1)%N | None => 0%N end.
Definition rho (s : state) (x : text) : text := mk x (count s x).
Definition allocated (s : state) (y : text) : Prop :=
  (exists x k, legal_name x /\ (k < count s x)%N /\ y = mk x k) \/
  (exists k, (k < generated_variables s)%N /\ y = gen k).
Definition place (s : state) (l : span) : option text := get_span l (variable_names s).

Lemma span_eqb_eq a b : span_eqb a b = true <-> a = b.
Proof. unfold span_eqb. destruct a, b. cbn. rewrite andb_true_iff, ! N.eqb_eq. split; [intros [-> ->]; reflexivity|intros [= -> ->]; auto]. Qed.
Lemma get_lookup {A} x (l : list (text * A)) : get x l = lookup x l.
Proof.
  induction l as [|[y a] l IH]; [reflexivity|]. cbn. rewrite IH. replace (text_eqb y x) with (text_eqb x y); [reflexivity|].
  apply eq_true_iff_eq. rewrite ! text_eqb_eq. split; congruence.
Qed.

Definition alloc1 (b : text * span) (s : state) : state :=
  State ((fst b, count s (fst b)) :: taken_names s) ((snd b, rho s (fst b)) :: variable_names s)
    (generated_variables s).
Definition alloc (b : scope) (s : state) : state := fold_left (fun s b => alloc1 b s) b s.
Lemma alloc_app b b' s : alloc (b ++ b') s = alloc b' (alloc b s).
Proof. apply fold_left_app. Qed.
Lemma new_variable x l s : new_erlang_variable x l s = Some (rho s x, alloc1 (x, l) s).
Proof. reflexivity. Qed.
Lemma new_generated s : new_generated_variable s =
  Some (gen (generated_variables s), State (taken_names s) (variable_names s) (generated_variables s + 1)).
Proof. reflexivity. Qed.

Definition ins (b : scope) (x : text) : N := if existsb (text_eqb x) (map fst b) then 1%N else 0%N.
Lemma ins_in b x : In x (map fst b) -> ins b x = 1%N.
Proof. intro H. unfold ins. replace (existsb (text_eqb x) (map fst b)) with true; [reflexivity|]. symmetry. apply existsb_exists. exists x. split; [exact H|apply text_eqb_refl]. Qed.
Lemma ins_out b x : ~ In x (map fst b) -> ins b x = 0%N.
Proof.
  intro H. unfold ins. destruct (existsb (text_eqb x) (map fst b)) eqn:E; [|reflexivity]. exfalso. apply existsb_exists in E.
  destruct E as (y & Y & E). apply text_eqb_eq in E. subst. contradiction.
Qed.
Lemma in_texts (x : text) l : {In x l} + {~ In x l}.
Proof. apply in_dec. apply list_eq_dec. apply N.eq_dec. Qed.

Lemma count_alloc1 b s x : count (alloc1 b s) x = (count s x + ins [b] x)%N.
Proof.
  unfold count at 1. cbn [alloc1 taken_names get]. destruct (text_eqb (fst b) x) eqn:E.
  - apply text_eqb_eq in E. rewrite ins_in by (left; exact E). rewrite E. reflexivity.
  - rewrite ins_out; [fold (count s x); lia|]. intros [H|[]]. apply text_eqb_neq in E. contradiction.
Qed.
Lemma count_alloc b s x : NoDup (map fst b) -> count (alloc b s) x = (count s x + ins b x)%N.
Proof.
  revert s. induction b as [|[y l] b IH]; intros s ND; [cbn; unfold ins; cbn; lia|].
  cbn [alloc fold_left]. change (fold_left _ b ?s) with (alloc b s). inversion ND; subst. rewrite IH, count_alloc1 by assumption.
  destruct (in_texts x (map fst b)) as [I|O].
  - rewrite (ins_in b x I), (ins_in ((y, l) :: b) x) by (right; exact I). rewrite (ins_out [(y, l)] x); [lia|].
    intros [E|[]]. cbn in E. subst. contradiction.
  - rewrite (ins_out b x O). destruct (in_texts x [y]) as [I|O'].
    + rewrite (ins_in [(y, l)] x I), (ins_in ((y, l) :: b) x); [lia|]. left. destruct I as [I|[]]. exact I.
    + rewrite (ins_out [(y, l)] x O'), (ins_out ((y, l) :: b) x); [lia|]. intros [E|E]; [apply O'; left; exact E|contradiction].
Qed.
Lemma rho_alloc b s x : NoDup (map fst b) -> ~ In x (map fst b) -> rho (alloc b s) x = rho s x.
Proof. intros ND O. unfold rho. rewrite count_alloc, ins_out, N.add_0_r by assumption. reflexivity. Qed.
Lemma place_alloc_out b : forall s l, ~ In l (map snd b) -> place (alloc b s) l = place s l.
Proof.
  induction b as [|[x m] b IH]; intros s l H; [reflexivity|]. cbn [alloc fold_left].
  change (fold_left _ b ?s) with (alloc b s). rewrite IH by (intro; apply H; right; assumption).
  unfold place. cbn [alloc1 variable_names get_span snd fst]. destruct (span_eqb m l) eqn:E; [|reflexivity].
  apply span_eqb_eq in E. exfalso. apply H. left. exact E.
Qed.
Lemma place_alloc b : forall s x l, NoDup (map fst b) -> NoDup (map snd b) -> In (x, l) b -> place (alloc b s) l = Some (rho s x).
Proof.
  induction b as [|[y m] b IH]; intros s x l N1 N2 H; [destruct H|]. inversion N1; inversion N2; subst.
  cbn [alloc fold_left]. change (fold_left _ b ?s) with (alloc b s). destruct H as [E|H].
  - injection E as -> ->. rewrite place_alloc_out by assumption. unfold place. cbn [alloc1 variable_names get_span snd fst].
    replace (span_eqb l l) with true; [reflexivity|]. symmetry. apply span_eqb_eq. reflexivity.
  - rewrite (IH _ x l) by assumption. f_equal. apply (rho_alloc [(y, m)]); [repeat constructor; auto|].
    intros [E|[]]. cbn in E. subst y. apply H2. apply in_map_iff. exists (x, l). auto.
Qed.
Lemma generated_alloc b : forall s, generated_variables (alloc b s) = generated_variables s.
Proof. induction b as [|b l IH]; intro s; [reflexivity|]. cbn [alloc fold_left]. change (fold_left _ l ?s) with (alloc l s). rewrite IH. reflexivity. Qed.

(** ** What generating does to the state *)

Definition moves (used : list span) (d : text -> N) (s s' : state) : Prop :=
  (forall x, count s' x = count s x + d x)%N /\
  (generated_variables s <= generated_variables s')%N /\
  (forall l, In l used -> place s' l = place s l).
Definition none : text -> N := fun _ => 0%N.
Definition plus (d d' : text -> N) : text -> N := fun x => (d x + d' x)%N.
Lemma moves_none used s : moves used none s s.
Proof. repeat split; intros; unfold none; lia || reflexivity. Qed.
Lemma moves_trans used d d' s s1 s2 : moves used d s s1 -> moves used d' s1 s2 -> moves used (plus d d') s s2.
Proof.
  intros (A & B & C) (A' & B' & C'). repeat split; intros; unfold plus.
  - rewrite A', A. lia.
  - lia.
  - rewrite C', C; auto.
Qed.
Lemma moves_less used used' d s s' : incl used' used -> moves used d s s' -> moves used' d s s'.
Proof. intros I (A & B & C). repeat split; auto. Qed.
Lemma moves_alloc used b s : fresh used b -> moves used (ins b) s (alloc b s).
Proof.
  intros (N1 & N2 & F). repeat split.
  - intro x. apply count_alloc, N1.
  - rewrite generated_alloc. lia.
  - intros l L. apply place_alloc_out. intro I. apply in_map_iff in I. destruct I as (p & <- & I).
    rewrite Forall_forall in F. destruct (F p I) as [_ O]. contradiction.
Qed.
Lemma moves_generated used s : moves used none s (State (taken_names s) (variable_names s) (generated_variables s + 1)).
Proof. repeat split; cbn; intros; unfold none, count; cbn; lia || reflexivity. Qed.
Lemma moves_allocated used d s s' y : moves used d s s' -> allocated s y -> allocated s' y.
Proof.
  intros (A & B & C) [(x & k & X & L & ->)|(k & L & ->)]; [left; exists x, k|right; exists k]; repeat split; auto; try lia.
  - apply X.
  - apply X.
  - rewrite A. lia.
Qed.

Definition resolves (vars : scope) (s : state) : Prop := forall x l, In (x, l) vars -> place s l <> None.
Lemma resolves_moves used d vars s s' : incl (map snd vars) used -> moves used d s s' -> resolves vars s -> resolves vars s'.
Proof. intros I (_ & _ & C) R x l H. rewrite C; [apply (R x l H)|]. apply I, in_map_iff. exists (x, l). auto. Qed.
Lemma resolves_alloc used b vars s : fresh used b -> incl (map snd vars) used -> resolves vars s -> resolves (b ++ vars) (alloc b s).
Proof.
  intros F I R x l H. apply in_app_iff in H. destruct H as [H|H].
  - destruct F as (N1 & N2 & _). rewrite (place_alloc b s x l N1 N2 H). discriminate.
  - exact (resolves_moves used (ins b) vars s _ I (moves_alloc used b s F) R x l H).
Qed.
Lemma lookup_in {A} x (l : list (text * A)) a : lookup x l = Some a -> In (x, a) l.
Proof.
  induction l as [|[y b] l IH]; cbn; [discriminate|]. destruct (text_eqb x y) eqn:E; [|auto].
  apply text_eqb_eq in E. intros [= ->]. subst. auto.
Qed.
Lemma fresh_legal used b x : fresh used b -> In x (map fst b) -> legal_name x.
Proof. intros (_ & _ & F) H. apply in_map_iff in H. destruct H as (p & <- & H). rewrite Forall_forall in F. apply F, H. Qed.
Lemma rho_fresh s x : legal_name x -> ~ allocated s (rho s x).
Proof.
  intros X [(y & k & Y & L & E)|(k & L & E)].
  - unfold rho in E. apply mk_injective in E; [|apply X|apply Y]. destruct E as [-> <-]. lia.
  - apply (mk_not_gen x _ _ X E).
Qed.
Lemma gen_fresh s : ~ allocated s (gen (generated_variables s)).
Proof.
  intros [(y & k & Y & L & E)|(k & L & E)].
  - symmetry in E. apply (mk_not_gen y _ _ Y E).
  - apply gen_injective in E. lia.
Qed.
Lemma alloc_allocated b s x : NoDup (map fst b) -> In x (map fst b) -> legal_name x -> allocated (alloc b s) (rho s x).
Proof. intros N H X. left. exists x, (count s x). split; [exact X|]. rewrite count_alloc, ins_in by assumption. split; [lia|reflexivity]. Qed.

(** ** Patterns *)

Fixpoint direct (p : pattern) : scope :=
  match p with
  | PDiscard _ | PInt _ _ | PString _ _ => []
  | PVariable l x => [(x, l)]
  | PAssign l x p => direct p ++ [(x, l)]
  | PTuple _ ps | PConstructor _ _ ps => flat_map direct ps
  | PList _ ps tail => flat_map direct ps ++ match tail with Some p => direct p | None => [] end
  | PStringPrefix _ _ _ rest l => match rest with Some x => [(x, l)] | None => [] end
  end.
Definition backwards {A} (f : pattern -> list A) (ps : list pattern) : list A := concat (rev (map f ps)).
Lemma backwards_cons {A} (f : pattern -> list A) p ps : backwards f (p :: ps) = backwards f ps ++ f p.
Proof. unfold backwards. cbn [map rev]. rewrite concat_app. cbn. rewrite app_nil_r. reflexivity. Qed.
Fixpoint prefixes (p : pattern) : aliases :=
  match p with
  | PDiscard _ | PInt _ _ | PString _ _ | PVariable _ _ => []
  | PAssign _ _ p => prefixes p
  | PTuple _ ps | PConstructor _ _ ps => backwards prefixes ps
  | PList _ ps tail => match tail with Some p => prefixes p | None => [] end ++ backwards prefixes ps
  | PStringPrefix _ w alias _ _ => match alias with Some (x, l) => [(x, (l, w))] | None => [] end
  end.
Fixpoint p_node (r : text -> text) (p : pattern) : node :=
  match p with
  | PDiscard _ => NDiscard
  | PInt _ z => NInt z
  | PString _ w => string_node w
  | PVariable _ x => NVar (r x)
  | PAssign _ x p => NMatch (p_node r p) (NVar (r x))
  | PTuple _ ps => NTuple (map (p_node r) ps)
  | PList _ ps tail =>
      fold_right NCons match tail with Some p => p_node r p | None => NNil end (map (p_node r) ps)
  | PConstructor _ c ps =>
      match ps with
      | [] => NAtom (to_snake_case c)
      | _ => NTuple (NAtom (to_snake_case c) :: map (p_node r) ps)
      end
  | PStringPrefix _ w _ rest _ =>
      NBits [(string_node w, (None, [Utf8]));
             (match rest with Some x => NVar (r x) | None => NDiscard end, (None, [Binary]))]
  end.

Lemma NoDup_app_l {A} (a b : list A) : NoDup (a ++ b) -> NoDup a.
Proof. induction a; cbn; intro H; [constructor|]. inversion H; subst. constructor; [|auto]. intro I. apply H2, in_app_iff. auto. Qed.
Lemma NoDup_app_r {A} (a b : list A) : NoDup (a ++ b) -> NoDup b.
Proof. induction a; cbn; intro H; [exact H|]. inversion H; auto. Qed.
Lemma NoDup_app_disjoint {A} (a b : list A) x : NoDup (a ++ b) -> In x a -> In x b -> False.
Proof.
  induction a; cbn; intros H I J; [destruct I|]. inversion H; subst. destruct I as [->|I]; [|auto].
  apply H2, in_app_iff. auto.
Qed.
Lemma NoDup_app_intro {A} (a b : list A) : NoDup a -> NoDup b -> (forall x, In x a -> ~ In x b) -> NoDup (a ++ b).
Proof.
  induction 1 as [|x a X A' IH]; intros B D; [exact B|]. cbn. constructor.
  - rewrite in_app_iff. intros [I|I]; [contradiction|]. apply (D x); [left; reflexivity|exact I].
  - apply IH; [exact B|]. intros y Y. apply D. right. exact Y.
Qed.

Lemma p_node_ext r r' p : (forall x, In x (map fst (direct p)) -> r x = r' x) -> p_node r p = p_node r' p.
Proof.
  assert (L : forall ps, Forall (fun p => (forall x, In x (map fst (direct p)) -> r x = r' x) -> p_node r p = p_node r' p) ps ->
     (forall x, In x (map fst (flat_map direct ps)) -> r x = r' x) -> map (p_node r) ps = map (p_node r') ps).
  { induction 1 as [|q ps Q _ IH]; intro E; [reflexivity|]. cbn [map]. cbn [flat_map] in E. rewrite map_app in E.
    f_equal; [apply Q|apply IH]; intros; apply E, in_app_iff; auto. }
  pattern p. apply pattern_rect'; clear p; intros; cbn [p_node direct] in *; try reflexivity.
  - rewrite H; [reflexivity|]. left. reflexivity.
  - rewrite map_app in H0. rewrite H, H0; [reflexivity| |]; intros; try apply H0; apply in_app_iff; auto. right. left. reflexivity.
  - f_equal. auto.
  - rewrite map_app in H1. rewrite (L ps H) by (intros; apply H1, in_app_iff; auto). f_equal.
    destruct tail as [q|]; [|reflexivity]. apply H0. intros. apply H1, in_app_iff. auto.
  - destruct ps as [|q ps]; [reflexivity|]. do 2 f_equal. exact (L (q :: ps) H H0).
  - destruct r0; [|reflexivity]. rewrite H by (left; reflexivity). reflexivity.
Qed.

Lemma bind_eq {A B} (m : M A) (f : A -> M B) s a s1 : m s = Some (a, s1) -> bind m f s = f a s1.
Proof. unfold bind. intros ->. reflexivity. Qed.

Definition pattern_is (p : pattern) : Prop := forall later s, NoDup (map fst (direct p)) ->
  t_pattern p later s = Some ((p_node (rho s) p, prefixes p ++ later), alloc (direct p) s).
Lemma row_is ps : Forall pattern_is ps -> forall later s, NoDup (map fst (flat_map direct ps)) ->
  in_turn t_pattern ps later s =
  Some ((map (p_node (rho s)) ps, backwards prefixes ps ++ later), alloc (flat_map direct ps) s).
Proof.
  induction 1 as [|p ps P _ IH]; intros later s N; [reflexivity|]. cbn [in_turn flat_map] in *. rewrite map_app in N.
  assert (N1 := NoDup_app_l _ _ N). assert (N2 := NoDup_app_r _ _ N).
  erewrite bind_eq by (apply P; exact N1). erewrite bind_eq by (apply IH; exact N2). cbn [fst snd]. unfold ret.
  rewrite backwards_cons, <- app_assoc, alloc_app. cbn [map].
  rewrite (map_ext_in (p_node (rho (alloc (direct p) s))) (p_node (rho s)) ps); [reflexivity|]. intros q Q. apply p_node_ext. intros x X. apply rho_alloc; [exact N1|]. intro I.
  apply (NoDup_app_disjoint _ _ x N I). rewrite in_map_iff in *. destruct X as (b & <- & X). exists b. split; [reflexivity|].
  apply in_flat_map. eauto.
Qed.
Lemma pattern_ok p : pattern_is p.
Proof.
  pattern p. apply pattern_rect'; clear p; unfold pattern_is at 1; intros; try unfold pattern_is at 1; cbn [t_pattern direct prefixes p_node] in *; intros; try reflexivity.
  - rewrite map_app in H0. erewrite bind_eq by (apply H; apply (NoDup_app_l _ _ H0)).
    erewrite bind_eq by apply new_variable. cbn [fst snd]. unfold ret. rewrite alloc_app. cbn [alloc fold_left].
    rewrite rho_alloc; [reflexivity|apply (NoDup_app_l _ _ H0)|]. intro I. apply (NoDup_app_disjoint _ _ x H0 I). left. reflexivity.
  - erewrite bind_eq by (apply row_is; assumption). reflexivity.
  - rewrite map_app in H1. assert (N1 := NoDup_app_l _ _ H1). assert (N2 := NoDup_app_r _ _ H1).
    erewrite bind_eq by (apply row_is; assumption). cbn [fst snd]. destruct tail as [q|].
    + erewrite bind_eq by (apply H0; exact N2). cbn [fst snd]. unfold ret. rewrite alloc_app, <- app_assoc.
      rewrite (p_node_ext (rho (alloc (flat_map direct ps) s)) (rho s) q); [reflexivity|]. intros x X. apply rho_alloc; [exact N1|]. intro I. apply (NoDup_app_disjoint _ _ x H1 I X).
    + rewrite app_nil_r. reflexivity.
  - destruct ps as [|q ps]; [reflexivity|]. erewrite bind_eq by (apply row_is; assumption). reflexivity.
  - destruct r; destruct a as [[? ?]|]; reflexivity.
Qed.
Lemma clause_patterns_ok ps s : NoDup (map fst (flat_map direct ps)) ->
  t_clause_patterns ps s =
  Some ((match ps with [p] => p_node (rho s) p | _ => NTuple (map (p_node (rho s)) ps) end, backwards prefixes ps),
        alloc (flat_map direct ps) s).
Proof.
  intro N. assert (A : Forall pattern_is ps) by (apply Forall_forall; intros; apply pattern_ok).
  assert (T : (bind (in_turn t_pattern ps []) (fun inner => ret (NTuple (fst inner), snd inner))) s =
     Some ((NTuple (map (p_node (rho s)) ps), backwards prefixes ps), alloc (flat_map direct ps) s)).
  { erewrite bind_eq by (apply row_is; assumption). cbn [fst snd]. rewrite app_nil_r. reflexivity. }
  destruct ps as [|p [|]]; [exact T| |exact T]. cbn [t_clause_patterns flat_map] in *. rewrite app_nil_r in *.
  rewrite pattern_ok by assumption. unfold backwards. cbn. rewrite app_nil_r. reflexivity.
Qed.

Definition bare (a : aliases) : scope := map (fun e => (fst e, fst (snd e))) a.
Lemma bare_names a : map fst (bare a) = map fst a.
Proof. unfold bare. rewrite map_map. reflexivity. Qed.
Lemma bound_split p : Permutation (bound_by p) (direct p ++ bare (prefixes p)).
Proof.
  assert (L : forall ps, Forall (fun p => Permutation (bound_by p) (direct p ++ bare (prefixes p))) ps ->
     Permutation (flat_map bound_by ps) (flat_map direct ps ++ bare (backwards prefixes ps))).
  { induction 1 as [|q ps Q _ IH]; [reflexivity|]. cbn [flat_map]. rewrite backwards_cons. unfold bare in *. rewrite map_app.
    rewrite Q, IH, <- ! app_assoc. apply Permutation_app_head. rewrite (app_assoc (flat_map direct ps)). apply Permutation_app_comm. }
  pattern p. apply pattern_rect'; clear p; intros; cbn [bound_by direct prefixes bare map app]; try reflexivity.
  - rewrite H, <- ! app_assoc. apply Permutation_app_head. apply Permutation_app_comm.
  - auto.
  - rewrite (L ps H). unfold bare. rewrite map_app. destruct tail as [q|]; cbn [maybe map app] in *.
    + rewrite H0, <- ! app_assoc. apply Permutation_app_head. unfold bare. rewrite Permutation_app_comm, <- ! app_assoc. reflexivity.
    + rewrite ! app_nil_r. reflexivity.
  - auto.
  - destruct a as [[x m]|], r; cbn; try reflexivity. apply perm_swap.
Qed.
Lemma bound_split_all ps : Permutation (flat_map bound_by ps) (flat_map direct ps ++ bare (backwards prefixes ps)).
Proof.
  assert (H := bound_split (PTuple (0%N, 0%N) ps)). exact H.
Qed.
Lemma aliased_prefixes p : forall x, In x (aliased p) <-> In x (map fst (prefixes p)).
Proof.
  assert (L : forall ps, Forall (fun p => forall x, In x (aliased p) <-> In x (map fst (prefixes p))) ps ->
     forall x, In x (flat_map aliased ps) <-> In x (map fst (backwards prefixes ps))).
  { induction 1 as [|q ps Q _ IH]; intro x; [reflexivity|]. cbn [flat_map]. rewrite backwards_cons, map_app, ! in_app_iff, Q, IH. tauto. }
  pattern p. apply pattern_rect'; clear p; intros; cbn [aliased prefixes]; try reflexivity; auto.
  - rewrite in_app_iff, map_app, in_app_iff, (L ps H). destruct tail as [q|]; [rewrite (H0 x); tauto|]. cbn. tauto.
  - destruct a as [[y m]|]; reflexivity.
Qed.
Lemma aliased_all ps x : In x (flat_map aliased ps) <-> In x (map fst (backwards prefixes ps)).
Proof. exact (aliased_prefixes (PTuple (0%N, 0%N) ps) x). Qed.

(** ** Aliases *)

Lemma insert_permutation e l : ~ In (fst e) (map fst l) -> Permutation (insert_sorted e l) (e :: l).
Proof.
  induction l as [|[x v] l IH]; intro H; [reflexivity|]. cbn [insert_sorted]. destruct (text_cmp (fst e) x) eqn:C.
  - apply text_cmp_eq in C. exfalso. apply H. left. symmetry. exact C.
  - reflexivity.
  - rewrite IH by (intro; apply H; right; assumption). apply perm_swap.
Qed.
Lemma filter_other (e : text * (span * text)) (l : aliases) : ~ In (fst e) (map fst l) -> filter (fun f => negb (text_eqb (fst e) (fst f))) l = l.
Proof.
  induction l as [|f l IH]; intro H; [reflexivity|]. cbn [filter]. destruct (text_eqb (fst e) (fst f)) eqn:E.
  - apply text_eqb_eq in E. exfalso. apply H. left. symmetry. exact E.
  - cbn. rewrite IH; [reflexivity|]. intro. apply H. right. assumption.
Qed.
Lemma sorted_permutation l : NoDup (map fst l) -> Permutation (sorted_by_name l) l.
Proof.
  induction l as [|e l IH]; intro N; [reflexivity|]. inversion N; subst. specialize (IH H2). cbn [sorted_by_name].
  assert (O : ~ In (fst e) (map fst (sorted_by_name l))) by (rewrite IH; exact H1).
  rewrite (filter_other e _ O), (insert_permutation e _ O), IH. reflexivity.
Qed.
Lemma assigned_is l : forall s, NoDup (map fst l) ->
  map_m (fun '(name, (location, value)) =>
    do x <- new_erlang_variable name location; ret (NMatch (NVar x) (string_node value))) l s =
  Some (map (fun e => NMatch (NVar (rho s (fst e))) (string_node (snd (snd e)))) l, alloc (bare l) s).
Proof.
  induction l as [|[x [m w]] l IH]; intros s N; [reflexivity|]. inversion N; subst. cbn [map_m].
  erewrite bind_eq by (erewrite bind_eq by apply new_variable; reflexivity).
  erewrite bind_eq by (apply IH; assumption). unfold ret. cbn [map fst snd bare alloc fold_left]. do 3 f_equal.
  apply map_ext_in. intros [y [m' w']] Y. cbn [fst snd]. f_equal. f_equal. apply (rho_alloc [(x, m)]); [repeat constructor; auto|].
  intros [E|[]]. cbn in E. subst. apply H1, in_map_iff. exists (y, (m', w')). auto.
Qed.
Lemma assignments_ok l s : NoDup (map fst l) ->
  t_assignments l s =
  Some (map (fun e => NMatch (NVar (rho s (fst e))) (string_node (snd (snd e)))) (sorted_by_name l), alloc (bare (sorted_by_name l)) s).
Proof. intro N. apply assigned_is. rewrite (sorted_permutation l N). exact N. Qed.

Lemma arguments_ok args : forall s, NoDup (map fst (arguments_bound args)) ->
  function_arguments_names args s =
  Some (map (fun a => match a with ArgDiscard _ => str "_" | ArgNamed x _ => rho s x end) args, alloc (arguments_bound args) s).
Proof.
  induction args as [|[l|x l] args IH]; intros s N; [reflexivity| |].
  - cbn [function_arguments_names]. erewrite bind_eq by (apply IH; exact N). reflexivity.
  - cbn [function_arguments_names]. erewrite bind_eq by apply new_variable. inversion N; subst. erewrite bind_eq by (apply IH; assumption).
    unfold ret. cbn [map arguments_bound flat_map app alloc fold_left]. do 3 f_equal. apply map_ext_in. intros [m|y m] Y; [reflexivity|].
    apply (rho_alloc [(x, l)]); [repeat constructor; auto|]. intros [E|[]]. cbn in E. subst. apply H1, in_map_iff. exists (y, m). split; [reflexivity|].
    apply in_flat_map. exists (ArgNamed y m). split; [exact Y|left; reflexivity].
Qed.
