(** Values of Gleam and terms of Erlang, while code runs. *)
From Coq Require Import String NArith ZArith List Bool Lia Permutation ZifyBool ZifyN ZifyNat.
From Verif Require Import Text TextProofs Strings StringsSpec StringsProofs Erl ErlangSource ErlangSourceSpec ErlangTypes
  ErlangCode ErlangRun ErlangRunProofs ErlangCodeSpec ErlangCodeTree ErlangCodeCalls ErlangCodeNames ErlangCodeState.
Import ListNotations.
Local Open Scope nat_scope.
Local Open Scope list_scope.

Section ValueInduction.
Context (P : value -> Prop) (P_int : forall z, P (DInt z)) (P_string : forall t, P (DString t))
  (P_record : forall c l, Forall P l -> P (DRecord c l)) (P_tuple : forall l, Forall P l -> P (DTuple l))
  (P_nil : P DNil) (P_cons : forall a b, P a -> P b -> P (DCons a b))
  (P_closure : forall f a b e, P (DClosure f a b e)) (P_constructor : forall c n, P (DConstructor c n))
  (P_function : forall f a, P (DFunction f a)) (P_foreign : forall f a, P (DForeign f a)).
Fixpoint value_rect' (v : value) : P v :=
  match v with
  | DInt z => P_int z
  | DString t => P_string t
  | DRecord c l => P_record c l (list_all _ value_rect' l)
  | DTuple l => P_tuple l (list_all _ value_rect' l)
  | DNil => P_nil
  | DCons a b => P_cons a b (value_rect' a) (value_rect' b)
  | DClosure f a b e => P_closure f a b e
  | DConstructor c n => P_constructor c n
  | DFunction f a => P_function f a
  | DForeign f a => P_foreign f a
  end.
End ValueInduction.

Definition parameter_names (s : state) (args : list arg_names) : list text :=
  map (fun a => match a with ArgDiscard _ => str "_" | ArgNamed x _ => rho s x end) args.

Section Rel.
Context (module path : text) (lines : N -> N).
Notation ctx fn := (Context module path fn lines).

Inductive vrel : value -> term -> Prop :=
| v_int z : vrel (DInt z) (VInt z)
| v_string t : vrel (DString t) (VBinary t)
| v_constant c : valid_upname c = true -> vrel (DRecord c []) (VAtom (to_snake_case c))
| v_record c v vs ts : valid_upname c = true -> Forall2 vrel (v :: vs) ts ->
    vrel (DRecord c (v :: vs)) (VTuple (VAtom (to_snake_case c) :: ts))
| v_tuple vs ts : Forall2 vrel vs ts -> vrel (DTuple vs) (VTuple ts)
| v_nil : vrel DNil VNil
| v_cons v vs t ts : vrel v t -> vrel vs ts -> vrel (DCons v vs) (VCons t ts)
| v_closure fn args body genv eenv used vars s ns s1 :
    unescaped fn = fn -> fresh used (arguments_bound args) -> body <> [] ->
    legal_body (legal module) (map snd (arguments_bound args) ++ used) (arguments_bound args ++ vars) body ->
    incl (map snd vars) used -> resolves vars s ->
    t_body (ctx fn) (t_expression (ctx fn)) body (alloc (arguments_bound args) s) = Some (ns, s1) ->
    (forall x l, lookup x vars = Some l -> exists y v t,
       place s l = Some y /\ lookup x genv = Some v /\ lookup y eenv = Some t /\ vrel v t) ->
    (forall y, In y (map fst eenv) -> allocated s y) ->
    vrel (DClosure fn args body genv) (VFun (map EVar (parameter_names s args)) (map meaning ns) eenv)
| v_constructor c n xs env : valid_upname c = true -> length xs = n -> NoDup xs -> ~ In (str "_") xs ->
    vrel (DConstructor c n)
      (VFun (map EVar xs) [match xs with
                           | [] => EAtom (to_snake_case c)
                           | _ => ETuple (EAtom (to_snake_case c) :: map EVar xs)
                           end] env)
| v_function f arity : vrel (DFunction f arity) (VRef (exported_name f) arity)
| v_foreign f arity : legal_foreign f ->
    vrel (DForeign f arity) (VRemote (foreign_module f) (foreign_name f) arity).

Lemma rel_represents : forall v t, vrel v t -> first_order v = true -> represents v t.
Proof.
  assert (L : forall l, Forall (fun v => forall t, vrel v t -> first_order v = true -> represents v t) l ->
    forall ts, Forall2 vrel l ts -> forallb first_order l = true -> Forall2 represents l ts).
  { induction 1 as [|v l V _ IH]; intros ts R F; inversion R; subst; [constructor|]. cbn in F. apply andb_true_iff in F. destruct F.
    constructor; auto. }
  intro v. pattern v. apply value_rect'; clear v; try discriminate.
  - intros z t H _. inversion H; subst. constructor.
  - intros w t H _. inversion H; subst. constructor.
  - intros c l IH t H F. inversion H; subst; constructor; try assumption. apply L; assumption.
  - intros l IH t H F. inversion H; subst; constructor. apply L; assumption.
  - intros t H _. inversion H; subst. constructor.
  - intros a b A B t H F. inversion H; subst. cbn in F. apply andb_true_iff in F. destruct F. constructor; auto.
Qed.
Lemma represents_rel : forall v t, represents v t -> vrel v t.
Proof.
  assert (L : forall l, Forall (fun v => forall t, represents v t -> vrel v t) l -> forall ts, Forall2 represents l ts -> Forall2 vrel l ts).
  { induction 1 as [|v l V _ IH]; intros ts R; inversion R; subst; constructor; auto. }
  intro v. pattern v. apply value_rect'; clear v; intros; try (inversion H; fail).
  - inversion H; subst. constructor.
  - inversion H; subst. constructor.
  - inversion H0; subst; constructor; try assumption. apply L; assumption.
  - inversion H0; subst. constructor. apply L; assumption.
  - inversion H; subst. constructor.
  - inversion H1; subst. constructor; auto.
Qed.
Lemma represents_rels vs ts : Forall2 represents vs ts -> Forall2 vrel vs ts.
Proof. apply Forall2_impl', represents_rel. Qed.
Lemma rels_represent vs ts : Forall2 vrel vs ts -> forallb first_order vs = true -> Forall2 represents vs ts.
Proof.
  induction 1 as [|v t vs ts V _ IH]; intro F; [constructor|]. cbn in F. apply andb_true_iff in F. destruct F.
  constructor; [apply rel_represents; assumption|auto].
Qed.

(** ** Booleans *)

Lemma rel_truth b : vrel (truth b) (boolean b).
Proof. destruct b; [exact (v_constant (str "True") eq_refl)|exact (v_constant (str "False") eq_refl)]. Qed.
Lemma rel_bool v t b : vrel v t -> as_bool v = Some b -> t = boolean b.
Proof.
  destruct v; try discriminate. cbn [as_bool]. destruct fields; [|discriminate]. intros R H. inversion R; subst.
  destruct (text_eqb constructor (str "True")) eqn:E; [apply text_eqb_eq in E; subst; injection H as <-; reflexivity|].
  destruct (text_eqb constructor (str "False")) eqn:E'; [apply text_eqb_eq in E'; subst; injection H as <-; reflexivity|discriminate].
Qed.

(** ** Equality *)

Definition same_row (loose : bool) := fix each l m :=
  match l, m with
  | a :: l, b :: m => match same loose a b with Some true => each l m | r => r end
  | _, _ => Some true
  end.
Definition equal_row := fix all l m :=
  match l, m with
  | [], [] => Some true
  | a :: l, b :: m => match equal a b with Some true => all l m | r => r end
  | _, _ => None
  end.
Lemma same_tuple loose l m : same loose (VTuple l) (VTuple m) = if Nat.eqb (length l) (length m) then same_row loose l m else Some false.
Proof. reflexivity. Qed.
Lemma equal_same loose : forall v w t u b, vrel v t -> vrel w u -> equal v w = Some b -> same loose t u = Some b.
Proof.
  assert (L : forall l, Forall (fun v => forall w t u b, vrel v t -> vrel w u -> equal v w = Some b -> same loose t u = Some b) l ->
    forall m ts us b, Forall2 vrel l ts -> Forall2 vrel m us -> equal_row l m = Some b ->
    (if Nat.eqb (length ts) (length us) then same_row loose ts us else Some false) = Some b).
  { induction 1 as [|v l V _ IH]; intros m ts us b R Q E; destruct m as [|w m]; inversion R; inversion Q; subst; cbn [equal_row] in E; try discriminate.
    - exact E.
    - cbn [length same_row]. change (Nat.eqb (S ?a) (S ?b)) with (Nat.eqb a b). destruct (equal v w) as [e|] eqn:EV; [|discriminate].
      rewrite (V w _ _ e H1 H6 EV). destruct e.
      + specialize (IH _ _ _ _ H3 H8 E). destruct (Nat.eqb (length l') (length l'0)); exact IH.
      + injection E as <-. destruct (Nat.eqb (length l') (length l'0)); reflexivity. }
  intro v. pattern v. apply value_rect'; clear v; intros.
  - destruct w; try discriminate. inversion H; inversion H0; subst. exact H1.
  - destruct w; try discriminate. inversion H; inversion H0; subst. exact H1.
  - destruct w; try discriminate. cbn [equal] in H2. fold equal_row in H2. destruct (text_eqb c constructor) eqn:E.
    + apply text_eqb_eq in E. subst constructor. inversion H0; inversion H1; subst; try discriminate.
      * injection H2 as <-. cbn. f_equal. apply text_eqb_refl.
      * assert (X := L _ H _ _ _ _ H7 H12 H2). rewrite same_tuple. cbn [length same_row]. change (Nat.eqb (S ?a) (S ?b)) with (Nat.eqb a b).
        cbn [same]. rewrite text_eqb_refl. exact X.
    + injection H2 as <-. assert (NE : valid_upname c = true -> valid_upname constructor = true -> text_eqb (to_snake_case c) (to_snake_case constructor) = false).
      { intros C D. apply text_eqb_neq. intro X. apply text_eqb_neq in E. apply E. apply snake_injective; assumption. }
      inversion H0; inversion H1; subst; try reflexivity.
      * cbn. rewrite NE by assumption. reflexivity.
      * rewrite same_tuple. cbn [length same_row]. cbn [same]. rewrite NE by assumption. destruct (Nat.eqb _ _); reflexivity.
  - destruct w; try discriminate. inversion H0; inversion H1; subst. rewrite same_tuple. eapply L; eassumption.
  - destruct w; try discriminate; inversion H; inversion H0; subst; exact H1.
  - destruct w; try discriminate; inversion H1; inversion H2; subst; [exact H3|]. cbn [equal] in H3. cbn [same].
    destruct (equal a w1) as [e|] eqn:E; [|discriminate]. rewrite (H _ _ _ _ H6 H11 E). destruct e; [|exact H3]. eapply H0; eassumption.
  - discriminate.
  - discriminate.
  - discriminate.
  - discriminate.
Qed.

(** ** Operators *)

Lemma plain_operates op v w r t u s : plain_symbol op = Some s -> op <> And -> op <> Or -> vrel v t -> vrel w u -> compute op v w = Some r ->
  exists x, operate s t u = Some (inl x) /\ vrel r x.
Proof.
  intros S NA NO V W C. destruct op; try discriminate; try contradiction; injection S as <-; cbn [compute] in C;
    try (destruct v; try discriminate; destruct w; try discriminate; inversion V; inversion W; subst; injection C as <-;
         eexists; split; [reflexivity|first [apply rel_truth|constructor]]; fail).
  - destruct (equal v w) as [b|] eqn:E; [|discriminate]. injection C as <-. exists (boolean b). split; [|apply rel_truth].
    cbn [operate]. rewrite (equal_same false v w t u b V W E). reflexivity.
  - destruct (equal v w) as [b|] eqn:E; [|discriminate]. injection C as <-. exists (boolean (negb b)). split; [|apply rel_truth].
    cbn [operate]. rewrite (equal_same true v w t u b V W E). reflexivity.
Qed.
Lemma guard_operates op v w r t u s : guard_symbol op = Some s -> op <> And -> op <> Or -> op <> DivInt -> op <> RemainderInt ->
  vrel v t -> vrel w u -> compute op v w = Some r -> exists x, operate s t u = Some (inl x) /\ vrel r x.
Proof.
  intros S NA NO ND NR V W C.
  assert (D : op = NotEq \/ op = Concatenate \/ plain_symbol op = guard_symbol op) by (destruct op; try contradiction; auto).
  destruct D as [->|[->|D]]; [|discriminate|rewrite <- D in S; eapply plain_operates; eassumption].
  injection S as <-. cbn [compute] in C.
  destruct (equal v w) as [b|] eqn:E; [|discriminate]. injection C as <-. exists (boolean (negb b)). split; [|apply rel_truth].
  cbn [operate]. rewrite (equal_same false v w t u b V W E). reflexivity.
Qed.

(** ** Patterns *)

Lemma lookup_app {A} x (a b : list (text * A)) : lookup x (a ++ b) = match lookup x a with Some v => Some v | None => lookup x b end.
Proof. induction a as [|[y v] a IH]; [reflexivity|]. cbn. destruct (text_eqb x y); [reflexivity|exact IH]. Qed.
Lemma lookup_none {A} x (l : list (text * A)) : ~ In x (map fst l) -> lookup x l = None.
Proof.
  induction l as [|[y v] l IH]; intro H; [reflexivity|]. cbn. destruct (text_eqb x y) eqn:E.
  - apply text_eqb_eq in E. exfalso. apply H. left. symmetry. exact E.
  - apply IH. intro. apply H. right. assumption.
Qed.
Lemma lookup_key {A} x (l : list (text * A)) v : lookup x l = Some v -> In x (map fst l).
Proof. intro H. apply lookup_in in H. apply in_map_iff. exists (x, v). auto. Qed.

Lemma onto_match p q v : forall bound, match_ (match_onto p q) v bound = match_ (EMatch p q) v bound.
Proof.
  induction p; try reflexivity. intro bound. cbn [match_onto]. cbn [match_]. destruct (match_ p1 v bound) as [l| |]; try reflexivity.
  rewrite IHp2. cbn [match_]. destruct (match_ p2 v (l ++ bound)) as [m| |]; try reflexivity. rewrite <- app_assoc.
  destruct (match_ q v (m ++ l ++ bound)) as [k| |]; try reflexivity. rewrite app_assoc. reflexivity.
Qed.
Lemma onto_assoc p q e : match_onto (match_onto p q) e = match_onto p (match_onto q e).
Proof. induction p; try reflexivity. cbn [match_onto]. rewrite IHp2. reflexivity. Qed.

Definition row_match := fix each (ps : list erl) (vs : list term) (bound : env) :=
  match ps, vs with
  | p :: ps, v :: vs =>
      match match_ p v bound with
      | Matches l => match each ps vs (l ++ bound) with Matches m => Matches (m ++ l) | r => r end
      | r => r
      end
  | _, _ => Matches []
  end.
Lemma match_tuple ps vs bound : match_ (ETuple ps) (VTuple vs) bound = if Nat.eqb (length ps) (length vs) then row_match ps vs bound else Differs.
Proof. reflexivity. Qed.
Lemma match_int z y bound : match_ (int_meaning z) (VInt y) bound = if (z =? y)%Z then Matches [] else Differs.
Proof.
  unfold int_meaning. destruct (z <? 0)%Z eqn:E; cbn [signed match_].
  - replace (- Z.of_N (Z.abs_N z))%Z with z by lia. reflexivity.
  - replace (Z.of_N (Z.abs_N z))%Z with z by lia. reflexivity.
Qed.

Section Match.
Context (r : text -> text) (r_inj : forall x y, legal_name x -> legal_name y -> r x = r y -> x = y)
  (r_plain : forall x, legal_name x -> r x <> str "_").

Definition binds (D : scope) (A : aliases) (gb : variables) (l : env) : Prop :=
  (forall y, In y (map fst l) -> exists x, In x (map fst D) /\ y = r x) /\
  (forall x, In x (map fst D) -> exists v t, lookup x gb = Some v /\ lookup (r x) l = Some t /\ vrel v t) /\
  (forall x at_ w, In (x, (at_, w)) A -> lookup x gb = Some (DString (unescaped w))) /\
  (forall x, In x (map fst gb) -> In x (map fst D) \/ In x (map fst A)).
Lemma binds_nil : binds [] [] [] [].
Proof. repeat split; cbn; try contradiction. Qed.
(** Patterns with different variables. *)
Lemma binds_app D1 A1 gb1 l1 D2 A2 gb2 l2 :
  (forall x, In x (map fst D1) \/ In x (map fst A1) -> In x (map fst D2) \/ In x (map fst A2) -> False) ->
  (forall x, In x (map fst D1) \/ In x (map fst D2) -> legal_name x) ->
  binds D1 A1 gb1 l1 -> binds D2 A2 gb2 l2 -> binds (D1 ++ D2) (A2 ++ A1) (gb2 ++ gb1) (l2 ++ l1).
Proof.
  intros N L (K1 & B1 & P1 & G1) (K2 & B2 & P2 & G2).
  assert (O2 : forall x, In x (map fst D1) \/ In x (map fst A1) -> lookup x gb2 = None).
  { intros x X. apply lookup_none. intro I. apply (N x X). apply G2, I. }
  repeat split.
  - intros y Y. rewrite map_app in *. apply in_app_iff in Y. destruct Y as [Y|Y].
    + destruct (K2 y Y) as (x & X & E). exists x. split; [apply in_app_iff; auto|exact E].
    + destruct (K1 y Y) as (x & X & E). exists x. split; [apply in_app_iff; auto|exact E].
  - intros x X. rewrite map_app in X. rewrite ! lookup_app. apply in_app_iff in X. destruct X as [X|X].
    + destruct (B1 x X) as (v & t & E1 & E2 & R). exists v, t. rewrite O2 by auto. split; [exact E1|]. split; [|exact R].
      rewrite (lookup_none (r x) l2); [exact E2|]. intro I. destruct (K2 _ I) as (z & Z & E). apply r_inj in E; [|apply L; auto|apply L; auto].
      subst z. apply (N x); auto.
    + destruct (B2 x X) as (v & t & E1 & E2 & R). exists v, t. rewrite E1, E2. auto.
  - intros x at_ w X. rewrite lookup_app. apply in_app_iff in X. destruct X as [X|X].
    + rewrite (P2 x at_ w X). reflexivity.
    + rewrite O2; [exact (P1 x at_ w X)|]. right. apply in_map_iff. eexists. split; [|exact X]. reflexivity.
  - intros x X. rewrite ! map_app in *. apply in_app_iff in X. rewrite ! in_app_iff. destruct X as [X|X]; [specialize (G2 x X)|specialize (G1 x X)]; tauto.
Qed.

Definition good (p : pattern) : Prop := NoDup (map fst (bound_by p)) /\ Forall legal_name (map fst (bound_by p)) /\ legal_pattern p.
Definition pattern_matches (p : pattern) : Prop := forall v t bound gr, vrel v t -> good p ->
  (forall x, In x (map fst (direct p)) -> lookup (r x) bound = None) -> matches p v = Some gr ->
  match gr with
  | None => match_ (meaning (p_node r p)) t bound = Differs
  | Some gb => exists l, match_ (meaning (p_node r p)) t bound = Matches l /\ binds (direct p) (prefixes p) gb l
  end.

Lemma names_split p x : In x (map fst (bound_by p)) <-> In x (map fst (direct p)) \/ In x (map fst (prefixes p)).
Proof. rewrite (perm_names _ _ x (bound_split p)), map_app, in_app_iff, bare_names. reflexivity. Qed.
Lemma names_split_all ps x : In x (map fst (flat_map bound_by ps)) <-> In x (map fst (flat_map direct ps)) \/ In x (map fst (backwards prefixes ps)).
Proof. exact (names_split (PTuple (0%N, 0%N) ps) x). Qed.

Definition good_row (ps : list pattern) : Prop :=
  NoDup (map fst (flat_map bound_by ps)) /\ Forall legal_name (map fst (flat_map bound_by ps)) /\ each legal_pattern ps.
Lemma good_cons p ps : good_row (p :: ps) -> good p /\ good_row ps /\
  forall x, In x (map fst (bound_by p)) -> In x (map fst (flat_map bound_by ps)) -> False.
Proof.
  intros (N & L & P). cbn [flat_map] in *. rewrite map_app in *. rewrite Forall_app in L. cbn [each] in P. repeat split; try tauto.
  - apply (NoDup_app_l _ _ N).
  - apply (NoDup_app_r _ _ N).
  - intros x. apply NoDup_app_disjoint, N.
Qed.
Lemma fresh_after (bound l : env) (D : scope) x : (forall y, In y (map fst l) -> exists x, In x (map fst D) /\ y = r x) ->
  legal_name x -> (forall z, In z (map fst D) -> legal_name z) -> ~ In x (map fst D) -> lookup (r x) bound = None -> lookup (r x) (l ++ bound) = None.
Proof.
  intros K LX LD O B. rewrite lookup_app, (lookup_none (r x) l); [exact B|]. intro I. destruct (K _ I) as (z & Z & E).
  apply r_inj in E; auto. subst. contradiction.
Qed.
Lemma row_matches ps : Forall pattern_matches ps -> forall vs ts bound gr, Forall2 vrel vs ts -> good_row ps ->
  (forall x, In x (map fst (flat_map direct ps)) -> lookup (r x) bound = None) -> all_match matches ps vs = Some gr ->
  match gr with
  | None => length ps = length ts -> row_match (map meaning (map (p_node r) ps)) ts bound = Differs
  | Some gb => length ps = length ts /\
     exists l, row_match (map meaning (map (p_node r) ps)) ts bound = Matches l /\ binds (flat_map direct ps) (backwards prefixes ps) gb l
  end.
Proof.
  induction 1 as [|p ps P _ IH]; intros vs ts bound gr R GR B M.
  - destruct vs; [|discriminate]. inversion R; subst. injection M as <-. split; [reflexivity|]. exists []. split; [reflexivity|]. apply binds_nil.
  - destruct vs as [|v vs]; [discriminate|]. inversion R; subst. destruct (good_cons _ _ GR) as (G1 & G2 & D).
    cbn [flat_map] in B. rewrite map_app in B. cbn [all_match] in M. destruct (matches p v) as [[gb|]|] eqn:E; [| |discriminate].
    + destruct (P v y bound (Some gb) H1 G1) as (l & ML & BL); [intros; apply B, in_app_iff; auto|exact E|].
      assert (B2 : forall x, In x (map fst (flat_map direct ps)) -> lookup (r x) (l ++ bound) = None).
      { intros x X. assert (LX : forall z, In z (map fst (bound_by p)) \/ In z (map fst (flat_map bound_by ps)) -> legal_name z).
        { destruct GR as (_ & L & _). cbn [flat_map] in L. rewrite map_app in L. rewrite Forall_forall in L. intros z Z. apply L, in_app_iff, Z. }
        eapply fresh_after; [apply BL| | | |apply B, in_app_iff; auto].
        - apply LX. right. apply names_split_all. auto.
        - intros z Z. apply LX. left. apply names_split. auto.
        - intro I. apply (D x); [apply names_split; auto|apply names_split_all; auto]. }
      destruct (all_match matches ps vs) as [[gb2|]|] eqn:E2; [| |discriminate]; injection M as <-.
      * destruct (IH vs l' (l ++ bound) (Some gb2) H3 G2 B2 E2) as (N & l2 & ML2 & BL2). split; [cbn; f_equal; exact N|].
        exists (l2 ++ l). split; [cbn [map row_match]; rewrite ML, ML2; reflexivity|]. cbn [flat_map]. rewrite backwards_cons.
        apply binds_app; [| |exact BL|exact BL2].
        -- intros x X Y. apply (D x); [apply names_split, X|apply names_split_all, Y].
        -- destruct GR as (_ & L & _). cbn [flat_map] in L. rewrite map_app in L. rewrite Forall_forall in L. intros x X. apply L, in_app_iff.
           destruct X; [left; apply names_split|right; apply names_split_all]; auto.
      * intro N. cbn [length] in N. injection N as N. cbn [map row_match]. rewrite ML. rewrite (IH vs l' (l ++ bound) None H3 G2 B2 E2 N). reflexivity.
    + injection M as <-. intros _. cbn [map row_match].
      rewrite (P v y bound None H1 G1) by (try exact E; intros; apply B, in_app_iff; auto). reflexivity.
Qed.
Lemma fold_cons_meaning rest l : meaning (fold_right NCons rest l) = fold_right ECons (meaning rest) (map meaning l).
Proof. induction l as [|n l IH]; [reflexivity|]. cbn [fold_right map meaning]. rewrite IH. reflexivity. Qed.

Lemma all_patterns p : pattern_matches p.
Proof.
  pattern p. apply pattern_rect'; clear p; intros; unfold pattern_matches; intros.
  - injection H2 as <-. exists []. split; [reflexivity|apply binds_nil].
  - cbn [matches] in H2. destruct v; try discriminate. inversion H; subst. injection H2 as <-. cbn [p_node meaning]. rewrite match_int.
    destruct (z =? z0)%Z; [exists []; split; [reflexivity|apply binds_nil]|reflexivity].
  - cbn [matches] in H2. destruct v; try discriminate. inversion H; subst. injection H2 as <-. cbn [p_node meaning string_node match_].
    destruct (text_eqb (unescaped w) t0); [exists []; split; [reflexivity|apply binds_nil]|reflexivity].
  - injection H2 as <-. destruct H0 as (_ & L & _). cbn [bound_by map fst] in L. inversion L; subst. exists [(r x, t)]. split.
    + cbn [p_node meaning match_]. destruct (text_eqb (r x) (str "_")) eqn:E; [apply text_eqb_eq in E; exfalso; eapply r_plain; eassumption|].
      rewrite H1; [reflexivity|]. left. reflexivity.
    + repeat split; cbn.
      * intros y [<-|[]]. exists x. auto.
      * intros y [<-|[]]. exists v, t. rewrite ! text_eqb_refl. auto.
      * contradiction.
      * intros y [<-|[]]. auto.
  - (* as *)
    cbn [matches] in H3. destruct H1 as (N & L & LP). cbn [bound_by legal_pattern direct prefixes] in *. rewrite map_app in *. cbn [map fst] in *.
    rewrite Forall_app in L. destruct L as [L LX]. inversion LX; subst. clear LX H6.
    assert (NX : ~ In x (map fst (bound_by p))). { intro I. apply (NoDup_app_disjoint _ _ x N I). left. reflexivity. }
    assert (G1 : good p) by (repeat split; [apply (NoDup_app_l _ _ N)|exact L|exact LP]).
    cbn [p_node meaning]. rewrite onto_match. cbn [match_].
    destruct (matches p v) as [[gb|]|] eqn:E; [| |discriminate]; injection H3 as <-.
    + destruct (H v t bound (Some gb) H0 G1) as (l1 & M & B); [intros; apply H2, in_app_iff; auto|exact E|]. rewrite M.
      destruct (text_eqb (r x) (str "_")) eqn:EX; [apply text_eqb_eq in EX; exfalso; eapply r_plain; eassumption|].
      assert (LD : forall z, In z (map fst (direct p)) -> legal_name z).
      { intros z Z. rewrite Forall_forall in L. apply L, names_split. auto. }
      assert (OD : ~ In x (map fst (direct p))) by (intro; apply NX, names_split; auto).
      rewrite (fresh_after bound l1 (direct p) x); [|apply B|assumption|exact LD|exact OD|apply H2, in_app_iff; right; left; reflexivity].
      exists ((r x, t) :: l1). split; [reflexivity|]. destruct B as (K & B & PA & GB). repeat split.
      * intros y [<-|Y]; [exists x; split; [apply in_map_iff; exists (x, l); split; [reflexivity|apply in_app_iff; right; left; reflexivity]|reflexivity]|].
        destruct (K y Y) as (z & Z & EZ). exists z. rewrite map_app, in_app_iff. auto.
      * intros z Z. rewrite map_app in Z. apply in_app_iff in Z. destruct Z as [Z|[<-|[]]].
        -- destruct (B z Z) as (w & u & E1 & E2 & R). exists w, u. cbn [lookup]. destruct (text_eqb z x) eqn:EZ.
           { apply text_eqb_eq in EZ. subst. contradiction. }
           destruct (text_eqb (r z) (r x)) eqn:EZ'. { apply text_eqb_eq, r_inj in EZ'; auto. subst. contradiction. } auto.
        -- exists v, t. cbn [lookup fst]. rewrite ! text_eqb_refl. auto.
      * intros z at_ w Z. cbn [lookup]. destruct (text_eqb z x) eqn:EZ; [|eapply PA, Z]. apply text_eqb_eq in EZ. subst z. exfalso.
        apply NX, names_split. right. apply in_map_iff. eexists. split; [|exact Z]. reflexivity.
      * intros z [<-|Z]; rewrite map_app, in_app_iff; cbn; [auto|]. destruct (GB z Z); auto.
    + rewrite (H v t bound None H0 G1) by (try exact E; intros; apply H2, in_app_iff; auto). reflexivity.
  - (* tuple *)
    cbn [matches] in H3. destruct v; try discriminate. inversion H0; subst. cbn [p_node meaning]. rewrite match_tuple. rewrite ! map_length.
    assert (X := row_matches ps H elements ts bound gr H5 H1 H2 H3). destruct gr as [gb|].
    + destruct X as (N & l1 & M & B). rewrite N, Nat.eqb_refl. exists l1. split; assumption.
    + destruct (Nat.eqb (length ps) (length ts)) eqn:E; [|reflexivity]. apply Nat.eqb_eq in E. apply X, E.
  - (* list *)
    cbn [p_node]. rewrite fold_cons_meaning.
    assert (X : forall ps, Forall pattern_matches ps -> forall v t bound gr, vrel v t -> good (PList l ps tail) ->
      (forall x, In x (map fst (direct (PList l ps tail))) -> lookup (r x) bound = None) -> matches (PList l ps tail) v = Some gr ->
      match gr with
      | None => match_ (fold_right ECons (meaning match tail with Some p => p_node r p | None => NNil end) (map meaning (map (p_node r) ps))) t bound = Differs
      | Some gb => exists l1, match_ (fold_right ECons (meaning match tail with Some p => p_node r p | None => NNil end) (map meaning (map (p_node r) ps))) t bound = Matches l1 /\
          binds (direct (PList l ps tail)) (prefixes (PList l ps tail)) gb l1
      end); [|eapply X; eassumption].
    clear - H0 r_inj r_plain. induction 1 as [|p ps P _ IH]; intros v t bound gr R GR B M.
    + cbn [matches] in M. cbn [direct flat_map prefixes app] in *. change (backwards prefixes []) with (@nil (text * (span * text))). rewrite app_nil_r. cbn [map fold_right].
      destruct tail as [p|].
      * apply (H0 v t bound gr R); [|exact B|exact M]. destruct GR as (N & L & LP). cbn in N, L, LP. repeat split; tauto.
      * destruct v; try discriminate; inversion R; subst; injection M as <-; cbn [meaning match_].
        -- exists []. split; [reflexivity|apply binds_nil].
        -- reflexivity.
    + destruct GR as (N & L & LP). cbn [bound_by flat_map] in N, L. rewrite <- app_assoc, map_app in N, L. rewrite Forall_app in L.
      destruct L as [L1 L2]. cbn [legal_pattern each] in LP. destruct LP as [[LP1 LP2] LP3].
      assert (G1 : good p) by (repeat split; [apply (NoDup_app_l _ _ N)|exact L1|exact LP1]).
      assert (G2 : good (PList l ps tail)) by (repeat split; [apply (NoDup_app_r _ _ N)|exact L2|exact LP2|exact LP3]).
      assert (D : forall x, In x (map fst (bound_by p)) -> In x (map fst (bound_by (PList l ps tail))) -> False) by (intro; apply NoDup_app_disjoint, N).
      assert (B' : forall x, In x (map fst (direct p)) \/ In x (map fst (direct (PList l ps tail))) -> lookup (r x) bound = None).
      { intros x X. apply B. cbn [direct flat_map]. rewrite <- app_assoc, map_app, in_app_iff. exact X. }
      assert (LN : forall x, In x (map fst (bound_by p)) \/ In x (map fst (bound_by (PList l ps tail))) -> legal_name x).
      { rewrite Forall_forall in L1, L2. intros x [X|X]; auto. }
      cbn [map fold_right match_].
      change (matches (PList l (p :: ps) tail) v) with
        (match v with
         | DNil => Some None
         | DCons a v =>
             match matches p a with
             | Some (Some b) => match matches (PList l ps tail) v with Some (Some b') => Some (Some (b' ++ b)) | r => r end
             | r => r
             end
         | _ => None
         end) in M.
      destruct v; try discriminate; inversion R; subst; [injection M as <-; reflexivity|].
      destruct (matches p v1) as [[gb|]|] eqn:E; [| |discriminate].
      * destruct (P v1 t0 bound (Some gb) H2 G1) as (l1 & ML & BL); [auto|exact E|]. rewrite ML.
        assert (B2 : forall x, In x (map fst (direct (PList l ps tail))) -> lookup (r x) (l1 ++ bound) = None).
        { intros x X. eapply fresh_after; [apply BL| | | |auto].
          - apply LN. right. apply names_split. auto.
          - intros z Z. apply LN. left. apply names_split. auto.
          - intro I. apply (D x); apply names_split; auto. }
        destruct (matches (PList l ps tail) v2) as [[gb2|]|] eqn:E2; [| |discriminate]; injection M as <-.
        -- destruct (IH v2 ts (l1 ++ bound) (Some gb2) H4 G2 B2 E2) as (l2 & ML2 & BL2). rewrite ML2. exists (l2 ++ l1). split; [reflexivity|].
           assert (W := binds_app _ _ _ _ _ _ _ _ (fun x X Y => D x (proj2 (names_split p x) X) (proj2 (names_split (PList l ps tail) x) Y))
             (fun x X => LN x match X with or_introl X => or_introl (proj2 (names_split p x) (or_introl X)) | or_intror X => or_intror (proj2 (names_split (PList l ps tail) x) (or_introl X)) end) BL BL2).
           cbn [direct prefixes flat_map] in W |- *. rewrite backwards_cons. rewrite <- ! app_assoc in *. exact W.
        -- rewrite (IH v2 ts (l1 ++ bound) None H4 G2 B2 E2). reflexivity.
      * injection M as <-. rewrite (P v1 t0 bound None H2 G1) by auto. reflexivity.
  - (* constructor *)
    cbn [matches] in H3. destruct v; try discriminate. destruct H1 as (N & L & LC & LP). cbn [bound_by legal_pattern direct prefixes p_node] in *.
    destruct (text_eqb c constructor) eqn:E.
    + apply text_eqb_eq in E. subst constructor. destruct ps as [|p ps].
      * destruct fields; [|discriminate]. injection H3 as <-. inversion H0; subst. exists []. cbn [meaning match_]. rewrite text_eqb_refl. split; [reflexivity|apply binds_nil].
      * destruct fields as [|v vs]; [discriminate|]. inversion H0; subst. cbn [meaning map]. rewrite match_tuple. cbn [length]. rewrite ! map_length.
        assert (X := row_matches (p :: ps) H (v :: vs) ts bound gr H8 (conj N (conj L LP)) H2 H3). cbn [length] in X.
        change (Nat.eqb (S ?a) (S ?b)) with (Nat.eqb a b). cbn [row_match match_]. rewrite text_eqb_refl. cbn [app].
        destruct gr as [gb|].
        -- destruct X as (N' & l1 & M & B). rewrite N'. replace (Nat.eqb (length ts) (length ts)) with true by (symmetry; apply Nat.eqb_refl).
           cbn [map row_match] in M. rewrite M. exists (l1 ++ []). split; [reflexivity|]. rewrite app_nil_r. exact B.
        -- destruct (Nat.eqb (S (length ps)) (length ts)) eqn:EL; [|reflexivity]. apply Nat.eqb_eq in EL. specialize (X EL). cbn [map row_match] in X. rewrite X. reflexivity.
    + injection H3 as <-. assert (NE : valid_upname constructor = true -> text_eqb (to_snake_case c) (to_snake_case constructor) = false).
      { intros D. apply text_eqb_neq. intro X. apply text_eqb_neq in E. apply E. apply snake_injective; assumption. }
      inversion H0; subst; destruct ps as [|p ps]; cbn [meaning map]; try reflexivity.
      * cbn [match_]. rewrite NE by assumption. reflexivity.
      * rewrite match_tuple. cbn [row_match match_]. rewrite NE by assumption. destruct (Nat.eqb _ _); reflexivity.
  - (* prefix *)
    cbn [matches] in H2. destruct v; try discriminate. inversion H; subst. destruct H0 as (N & L & LP).
    cbn [bound_by legal_pattern direct prefixes p_node] in *. rewrite map_app in N, L. rewrite Forall_app in L. destruct L as [LA LR].
    assert (ME : forall right, match right with NString _ _ => False | _ => True end -> match_ (meaning (NBits [(string_node w, (None, [Utf8])); (right, (None, [Binary]))])) (VBinary t0) bound =
      if starts_with (unescaped w) t0 then match_ (meaning right) (VBinary (skipn (length (unescaped w)) t0)) bound else Differs).
    { intros right T. destruct right; try contradiction; reflexivity. }
    rewrite ME by (destruct r0; exact I). clear ME. destruct (starts_with (unescaped w) t0); injection H2 as <-; [|reflexivity].
    assert (BA : forall gb, gb = match a with Some (x, _) => [(x, DString (unescaped w))] | None => [] end ->
       binds [] match a with Some (x, l) => [(x, (l, w))] | None => [] end gb []).
    { intros gb ->. destruct a as [[x at_]|]; [|apply binds_nil]. repeat split; cbn; try contradiction; [|auto].
      intros z at1 w1 [Z|[]]. injection Z as <- <- <-. rewrite text_eqb_refl. reflexivity. }
    specialize (BA _ eq_refl). destruct r0 as [x|].
    + cbn [map fst] in *. inversion LR; subst. cbn [meaning match_].
      destruct (text_eqb (r x) (str "_")) eqn:EX; [apply text_eqb_eq in EX; exfalso; eapply r_plain; eassumption|].
      rewrite H1 by (left; reflexivity). exists [(r x, VBinary (skipn (length (unescaped w)) t0))]. split; [reflexivity|].
      assert (BR : binds [(x, rl)] [] [(x, DString (skipn (length (unescaped w)) t0))] [(r x, VBinary (skipn (length (unescaped w)) t0))]).
      { repeat split; cbn; try contradiction.
        - intros y [<-|[]]. exists x. auto.
        - intros y [<-|[]]. eexists _, _. rewrite ! text_eqb_refl. split; [reflexivity|]. split; [reflexivity|constructor].
        - intros y [<-|[]]. auto. }
      assert (W := fun A B => binds_app _ _ _ _ _ _ _ _ A B BA BR). apply W.
      * intros z [[]|Z] [[<-|[]]|[]]. apply (NoDup_app_disjoint _ _ x N); [|left; reflexivity]. destruct a as [[y at_]|]; [exact Z|destruct Z].
      * intros z [[]|[<-|[]]]. assumption.
    + exists []. split; [reflexivity|]. exact BA.
Qed.
End Match.
End Rel.
