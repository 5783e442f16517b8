(** What the visitor of the call graph records. *)
From Coq Require Import NArith Bool List Lia.
From Verif Require Import Text TextProofs CallGraph CallGraphSpec.
Import ListNotations.

(** ** Induction over the trees *)
Definition option_all {A} (P : A -> Prop) (o : option A) : Prop := match o with Some a => P a | None => True end.

Section PatternInd.
  Variable P : pattern -> Prop.
  Hypothesis Hinert : P PInert.
  Hypothesis Hprefix : forall l r, P (PPrefix l r).
  Hypothesis Hvar : forall n, P (PVariable n).
  Hypothesis Htuple : forall ps, Forall P ps -> P (PTuple ps).
  Hypothesis Hlist : forall ps t, Forall P ps -> option_all P t -> P (PList ps t).
  Hypothesis Hassign : forall n p, P p -> P (PAssign n p).
  Hypothesis Hcons : forall ps, Forall P ps -> P (PConstructor ps).
  Hypothesis Hbits : forall segs, Forall (fun s => P (snd s)) segs -> P (PBitArray segs).
  Fixpoint pattern_ind' (p : pattern) : P p :=
    let all := fix all (ps : list pattern) : Forall P ps :=
      match ps with [] => Forall_nil _ | p :: ps => Forall_cons _ (pattern_ind' p) (all ps) end in
    match p with
    | PInert => Hinert
    | PPrefix l r => Hprefix l r
    | PVariable n => Hvar n
    | PTuple ps => Htuple ps (all ps)
    | PList ps t => Hlist ps t (all ps)
        (match t as t0 return option_all P t0 with Some p => pattern_ind' p | None => I end)
    | PAssign n p => Hassign n p (pattern_ind' p)
    | PConstructor ps => Hcons ps (all ps)
    | PBitArray segs => Hbits segs
        ((fix go (segs : list (list size * pattern)) : Forall (fun s => P (snd s)) segs :=
            match segs with
            | [] => Forall_nil _
            | s :: segs => Forall_cons _
                (match s as s0 return P (snd s0) with (os, p) => pattern_ind' p end) (go segs)
            end) segs)
    end.
End PatternInd.

Section ConstantInd.
  Variable P : constant -> Prop.
  Hypothesis Hinert : P CInert.
  Hypothesis Htodo : forall m, option_all P m -> P (CTodo m).
  Hypothesis Hlist : forall ps t, Forall P ps -> option_all P t -> P (CList ps t).
  Hypothesis Htuple : forall ps, Forall P ps -> P (CTuple ps).
  Hypothesis Hrecord : forall ps, option_all (Forall P) ps -> P (CRecord ps).
  Hypothesis Hupdate : forall b ps, P b -> Forall P ps -> P (CRecordUpdate b ps).
  Hypothesis Hvar : forall n, P (CVar n).
  Hypothesis Hbits : forall segs, Forall (fun s => Forall P (fst s) /\ P (snd s)) segs -> P (CBitArray segs).
  Hypothesis Hop : forall l r, P l -> P r -> P (COperator l r).
  Fixpoint constant_ind' (c : constant) : P c :=
    let all := fix all (ps : list constant) : Forall P ps :=
      match ps with [] => Forall_nil _ | p :: ps => Forall_cons _ (constant_ind' p) (all ps) end in
    let opt := fun t : option constant =>
      match t as t0 return option_all P t0 with Some p => constant_ind' p | None => I end in
    match c with
    | CInert => Hinert
    | CTodo m => Htodo m (opt m)
    | CList ps t => Hlist ps t (all ps) (opt t)
    | CTuple ps => Htuple ps (all ps)
    | CRecord ps => Hrecord ps
        (match ps as ps0 return option_all (Forall P) ps0 with Some ps => all ps | None => I end)
    | CRecordUpdate b ps => Hupdate b ps (constant_ind' b) (all ps)
    | CVar n => Hvar n
    | CBitArray segs => Hbits segs
        ((fix go (segs : list (list constant * constant)) : Forall (fun s => Forall P (fst s) /\ P (snd s)) segs :=
            match segs with
            | [] => Forall_nil _
            | s :: segs => Forall_cons _
                (match s as s0 return Forall P (fst s0) /\ P (snd s0) with
                 | (os, p) => conj (all os) (constant_ind' p) end) (go segs)
            end) segs)
    | COperator l r => Hop l r (constant_ind' l) (constant_ind' r)
    end.
End ConstantInd.

Section ExprInd.
  Variables (P : expr -> Prop) (Q : statement -> Prop) (K : clause -> Prop).
  Hypothesis Hinert : P EInert.
  Hypothesis Hmessage : forall m, option_all P m -> P (EMessage m).
  Hypothesis Hecho : forall e m, option_all P e -> option_all P m -> P (EEcho e m).
  Hypothesis Hvar : forall n, P (EVar n).
  Hypothesis Hcall : forall f es, P f -> Forall P es -> P (ECall f es).
  Hypothesis Hpipe : forall es, Forall P es -> P (EPipeline es).
  Hypothesis Htuple : forall es, Forall P es -> P (ETuple es).
  Hypothesis Hblock : forall ss, Forall Q ss -> P (EBlock ss).
  Hypothesis Hop : forall l r, P l -> P r -> P (EOperator l r).
  Hypothesis Hlist : forall es t, Forall P es -> option_all P t -> P (EList es t).
  Hypothesis Hunary : forall e, P e -> P (EUnary e).
  Hypothesis Hbits : forall segs, Forall (fun s => P (fst s) /\ Forall P (snd s)) segs -> P (EBitArray segs).
  Hypothesis Hupdate : forall b es, P b -> Forall P es -> P (ERecordUpdate b es).
  Hypothesis Hfn : forall args ss, Forall Q ss -> P (EFn args ss).
  Hypothesis Hcase : forall es cs, Forall P es -> option_all (Forall K) cs -> P (ECase es cs).
  Hypothesis Hsexpr : forall e, P e -> Q (SExpression e).
  Hypothesis Hsassign : forall p v m, P v -> option_all P m -> Q (SAssignment p v m).
  Hypothesis Hsuse : forall c ps, P c -> Q (SUse c ps).
  Hypothesis Hsassert : forall v m, P v -> option_all P m -> Q (SAssert v m).
  Hypothesis Hclause : forall ps alts g e, P e -> K (Clause ps alts g e).
  Fixpoint expr_ind' (e : expr) : P e :=
    let all := fix all (es : list expr) : Forall P es :=
      match es with [] => Forall_nil _ | e :: es => Forall_cons _ (expr_ind' e) (all es) end in
    let allq := fix allq (es : list statement) : Forall Q es :=
      match es with [] => Forall_nil _ | e :: es => Forall_cons _ (statement_ind' e) (allq es) end in
    let allk := fix allk (es : list clause) : Forall K es :=
      match es with [] => Forall_nil _ | e :: es => Forall_cons _ (clause_ind' e) (allk es) end in
    let opt := fun t : option expr =>
      match t as t0 return option_all P t0 with Some p => expr_ind' p | None => I end in
    match e with
    | EInert => Hinert
    | EMessage m => Hmessage m (opt m)
    | EEcho e m => Hecho e m (opt e) (opt m)
    | EVar n => Hvar n
    | ECall f es => Hcall f es (expr_ind' f) (all es)
    | EPipeline es => Hpipe es (all es)
    | ETuple es => Htuple es (all es)
    | EBlock ss => Hblock ss (allq ss)
    | EOperator l r => Hop l r (expr_ind' l) (expr_ind' r)
    | EList es t => Hlist es t (all es) (opt t)
    | EUnary e => Hunary e (expr_ind' e)
    | EBitArray segs => Hbits segs
        ((fix go (segs : list (expr * list expr)) : Forall (fun s => P (fst s) /\ Forall P (snd s)) segs :=
            match segs with
            | [] => Forall_nil _
            | s :: segs => Forall_cons _
                (match s as s0 return P (fst s0) /\ Forall P (snd s0) with
                 | (p, os) => conj (expr_ind' p) (all os) end) (go segs)
            end) segs)
    | ERecordUpdate b es => Hupdate b es (expr_ind' b) (all es)
    | EFn args ss => Hfn args ss (allq ss)
    | ECase es cs => Hcase es cs (all es)
        (match cs as cs0 return option_all (Forall K) cs0 with Some cs => allk cs | None => I end)
    end
  with statement_ind' (s : statement) : Q s :=
    let opt := fun t : option expr =>
      match t as t0 return option_all P t0 with Some p => expr_ind' p | None => I end in
    match s with
    | SExpression e => Hsexpr e (expr_ind' e)
    | SAssignment p v m => Hsassign p v m (expr_ind' v) (opt m)
    | SUse c ps => Hsuse c ps (expr_ind' c)
    | SAssert v m => Hsassert v m (expr_ind' v) (opt m)
    end
  with clause_ind' (c : clause) : K c :=
    match c with Clause ps alts g e => Hclause ps alts g e (expr_ind' e) end.
  Lemma trees_ind : (forall e, P e) /\ (forall s, Q s) /\ (forall c, K c).
  Proof. split; [exact expr_ind'|split; [exact statement_ind'|exact clause_ind']]. Qed.
End ExprInd.

(** ** Text equality *)
Lemma lookup_eq {A} n (a : A) m : lookup n ((n, a) :: m) = Some a.
Proof. simpl. rewrite (proj2 (text_eqb_eq n n) eq_refl). reflexivity. Qed.
Lemma lookup_neq {A} n n' (a : A) m : n <> n' -> lookup n ((n', a) :: m) = lookup n m.
Proof.
  intros H. simpl. destruct (text_eqb n n') eqn:E; [|reflexivity].
  apply text_eqb_eq in E. contradiction.
Qed.
Lemma text_dec (a b : text) : {a = b} + {a <> b}.
Proof.
  destruct (text_eqb a b) eqn:E; [left; apply text_eqb_eq; exact E|right].
  intros H. apply text_eqb_eq in H. congruence.
Qed.

(** ** Visiting only adds edges from the current node *)
Definition grows (b b' : builder) : Prop :=
  nodes b' = nodes b /\ current_function b' = current_function b /\ exists new, edges b' = edges b ++ new.
Lemma grows_refl b : grows b b.
Proof. split; [reflexivity|split; [reflexivity|exists []; rewrite app_nil_r; reflexivity]]. Qed.
Lemma grows_trans a b c : grows a b -> grows b c -> grows a c.
Proof.
  intros (N1 & C1 & n1 & E1) (N2 & C2 & n2 & E2).
  split; [congruence|split; [congruence|]].
  exists (n1 ++ n2). rewrite E2, E1, app_assoc. reflexivity.
Qed.
Lemma grows_in b b' x : grows b b' -> In x (edges b) -> In x (edges b').
Proof. intros (_ & _ & n & E) H. rewrite E. apply in_or_app. left. exact H. Qed.
Lemma grows_names b b' ns : grows b b' -> grows b (with_names ns b').
Proof. intros H. exact H. Qed.
Lemma grows_names' b b' ns : grows (with_names ns b) b' -> grows b b'.
Proof. intros H. exact H. Qed.
Lemma define_grows n b : grows b (define n b).
Proof. apply grows_names, grows_refl. Qed.
Lemma define_option_grows n b : grows b (define_option n b).
Proof. destruct n; [apply define_grows|apply grows_refl]. Qed.
Lemma referenced_grows n b : grows b (referenced n b).
Proof.
  unfold referenced. destruct (lookup n (names b)) as [[[t l]|]|]; try apply grows_refl.
  split; [reflexivity|split; [reflexivity|exists [(current_function b, t)]; reflexivity]].
Qed.
Lemma referenced_names n b : names (referenced n b) = names b.
Proof. unfold referenced. destruct (lookup n (names b)) as [[[t l]|]|]; reflexivity. Qed.

Section Visit.
  Context {A : Type} (f : A -> builder -> builder).
  Lemma visit_all_app l1 l2 b : visit_all f (l1 ++ l2) b = visit_all f l2 (visit_all f l1 b).
  Proof. unfold visit_all. apply fold_left_app. Qed.
  Lemma visit_all_split l1 a l2 b : visit_all f (l1 ++ a :: l2) b = visit_all f l2 (f a (visit_all f l1 b)).
  Proof. rewrite visit_all_app. reflexivity. Qed.
  Lemma visit_all_inv (R : builder -> builder -> Prop) l :
    (forall b, R b b) -> (forall a b c, R a b -> R b c -> R a c) ->
    Forall (fun a => forall b, R b (f a b)) l -> forall b, R b (visit_all f l b).
  Proof.
    intros Hr Ht. induction l as [|a l IH]; intros H b; [apply Hr|].
    inversion H; subst. cbn. apply Ht with (f a b); [auto|]. apply IH. assumption.
  Qed.
  Lemma visit_option_inv (R : builder -> builder -> Prop) o :
    (forall b, R b b) -> option_all (fun a => forall b, R b (f a b)) o -> forall b, R b (visit_option f o b).
  Proof. intros Hr H b. destruct o; [apply H|apply Hr]. Qed.
  Lemma visit_all_new x (G : Prop) l b :
    (forall l1 a l2, l = l1 ++ a :: l2 -> In x (edges (f a (visit_all f l1 b))) ->
       In x (edges (visit_all f l1 b)) \/ G) ->
    In x (edges (visit_all f l b)) -> In x (edges b) \/ G.
  Proof.
    induction l as [|a l IH] using rev_ind; intros H Hin; [left; exact Hin|].
    rewrite visit_all_split in Hin. cbn in Hin.
    destruct (H l a [] eq_refl Hin) as [H1|H1]; [|right; exact H1].
    apply IH; [|exact H1]. intros l1 a1 l2 E. apply (H l1 a1 (l2 ++ [a])). rewrite E, <- app_assoc. reflexivity.
  Qed.
End Visit.

Lemma Forall_imp {A} (P Q : A -> Prop) l : Forall P l -> (forall a, P a -> Q a) -> Forall Q l.
Proof. intros H HPQ. eapply Forall_impl; [|exact H]. exact HPQ. Qed.
Lemma Forall_all {A} (P : A -> Prop) l : (forall a, P a) -> Forall P l.
Proof. intros H. apply Forall_forall. intros a _. apply H. Qed.

(** A relation that every step of the visitor respects. *)
Section Relation.
  Variable R : builder -> builder -> Prop.
  Hypothesis Rr : forall b, R b b.
  Hypothesis Rt : forall a b c, R a b -> R b c -> R a c.
  Hypothesis Rreferenced : forall n b, R b (referenced n b).
  Lemma size_relation s : forall b, R b (bit_array_size s b).
  Proof.
    induction s as [|n|l IHl r IHr|s IH]; intros b; cbn [bit_array_size];
      [apply Rr|apply Rreferenced|apply Rt with (bit_array_size l b); auto|auto].
  Qed.
  Lemma constant_relation c : forall b, R b (visit_constant c b).
  Proof.
    induction c using constant_ind'; intros b0; cbn [visit_constant].
    - apply Rr.
    - apply visit_option_inv; assumption.
    - apply Rt with (visit_all visit_constant ps b0); [apply visit_all_inv; assumption|apply visit_option_inv; assumption].
    - apply visit_all_inv; assumption.
    - destruct ps as [ps|]; [apply visit_all_inv; assumption|apply Rr].
    - apply Rt with (visit_constant c b0); [auto|apply visit_all_inv; assumption].
    - apply Rreferenced.
    - apply (visit_all_inv (fun seg b => visit_constant (snd seg) (visit_all visit_constant (fst seg) b)) R); try assumption.
      apply (Forall_imp _ _ _ H). intros [os c] [Hos Hc] b1. cbn [fst snd].
      apply Rt with (visit_all visit_constant os b1); [apply visit_all_inv; assumption|apply Hc].
    - apply Rt with (visit_constant c1 b0); auto.
  Qed.
  Lemma guard_relation g : forall b, R b (visit_guard g b).
  Proof.
    induction g as [|l IHl r IHr|g IH|n|m|c]; intros b; cbn [visit_guard]; auto.
    - apply Rt with (visit_guard l b); auto.
    - apply constant_relation.
  Qed.
  Hypothesis Rdefine : forall n b, R b (define n b).
  Lemma define_option_relation n b : R b (define_option n b).
  Proof. destruct n; [apply Rdefine|apply Rr]. Qed.
  Lemma pattern_relation p : forall b, R b (visit_pattern p b).
  Proof.
    induction p using pattern_ind'; intros b0; cbn [visit_pattern].
    - apply Rr.
    - apply define_option_relation.
    - apply Rdefine.
    - apply visit_all_inv; assumption.
    - apply Rt with (visit_all visit_pattern ps b0); [apply visit_all_inv; assumption|apply visit_option_inv; assumption].
    - apply Rt with (define n b0); [apply Rdefine|apply IHp].
    - apply visit_all_inv; assumption.
    - apply (visit_all_inv (fun seg b => visit_pattern (snd seg) (visit_all bit_array_size (fst seg) b)) R); try assumption.
      apply (Forall_imp _ _ _ H). intros [os c] Hc b1. cbn [fst snd].
      apply Rt with (visit_all bit_array_size os b1); [|apply Hc].
      apply visit_all_inv; try assumption. apply Forall_all. intros a b2. apply size_relation.
  Qed.
End Relation.

Lemma constant_grows c b : grows b (visit_constant c b).
Proof. apply constant_relation; [apply grows_refl|apply grows_trans|apply referenced_grows]. Qed.
Lemma guard_grows c b : grows b (visit_guard c b).
Proof. apply guard_relation; [apply grows_refl|apply grows_trans|apply referenced_grows]. Qed.
Lemma pattern_grows c b : grows b (visit_pattern c b).
Proof. apply pattern_relation; [apply grows_refl|apply grows_trans|apply referenced_grows|apply define_grows]. Qed.
Definition same_names (b b' : builder) : Prop := names b' = names b.
Lemma same_names_refl b : same_names b b. Proof. reflexivity. Qed.
Lemma same_names_trans a b c : same_names a b -> same_names b c -> same_names a c.
Proof. unfold same_names. congruence. Qed.
Lemma size_names s b : names (bit_array_size s b) = names b.
Proof. apply (size_relation same_names); [apply same_names_refl|apply same_names_trans|intros; apply referenced_names]. Qed.
Lemma sizes_names os b : names (visit_all bit_array_size os b) = names b.
Proof.
  apply (visit_all_inv bit_array_size same_names); [apply same_names_refl|apply same_names_trans|].
  apply Forall_all. intros a b0. apply size_names.
Qed.
Lemma size_grows s b : grows b (bit_array_size s b).
Proof. apply size_relation; [apply grows_refl|apply grows_trans|apply referenced_grows]. Qed.
Lemma sizes_grow os b : grows b (visit_all bit_array_size os b).
Proof. apply visit_all_inv; [apply grows_refl|apply grows_trans|apply Forall_all; apply size_grows]. Qed.
Lemma constant_names s b : names (visit_constant s b) = names b.
Proof. apply (constant_relation same_names); [apply same_names_refl|apply same_names_trans|intros; apply referenced_names]. Qed.
Lemma guard_names s b : names (visit_guard s b) = names b.
Proof. apply (guard_relation same_names); [apply same_names_refl|apply same_names_trans|intros; apply referenced_names]. Qed.

(** Expressions grow the edges and leave the names. *)
Definition keeps (b b' : builder) : Prop := grows b b' /\ names b' = names b.
Lemma keeps_refl b : keeps b b.
Proof. split; [apply grows_refl|reflexivity]. Qed.
Lemma keeps_trans a b c : keeps a b -> keeps b c -> keeps a c.
Proof. intros [G1 N1] [G2 N2]. split; [apply (grows_trans a b c); assumption|congruence]. Qed.
Lemma statements_keeps ss b : Forall (fun s => forall b, grows b (visit_statement s b)) ss -> keeps b (statements ss b).
Proof.
  intros H. split; [|reflexivity]. apply grows_names. apply visit_all_inv; [apply grows_refl|apply grows_trans|exact H].
Qed.
Lemma args_grow args b : grows b (visit_all define_option args b).
Proof.
  apply visit_all_inv; [apply grows_refl|apply grows_trans|apply Forall_all; intros a b0; apply define_option_grows].
Qed.
Lemma trees_keep :
  (forall e b, keeps b (expression e b)) /\ (forall s b, grows b (visit_statement s b)) /\
  (forall c b, keeps b (visit_clause c b)).
Proof.
  pose proof keeps_refl as KR. pose proof keeps_trans as KT.
  apply trees_ind.
  - intros b. apply KR.
  - intros m Hm b. apply (visit_option_inv expression keeps); assumption.
  - intros e m He Hm b. apply KT with (visit_option expression e b);
      apply (visit_option_inv expression keeps); assumption.
  - intros n b. split; [apply referenced_grows|apply referenced_names].
  - intros f es Hf Hes b. apply KT with (expression f b); [apply Hf|].
    apply (visit_all_inv expression keeps); assumption.
  - intros es Hes b. apply (visit_all_inv expression keeps); assumption.
  - intros es Hes b. apply (visit_all_inv expression keeps); assumption.
  - intros ss Hss b. apply (statements_keeps ss b Hss).
  - intros l r Hl Hr b. apply KT with (expression l b); [apply Hl|apply Hr].
  - intros es t Hes Ht b. apply KT with (visit_all expression es b);
      [apply (visit_all_inv expression keeps)|apply (visit_option_inv expression keeps)]; assumption.
  - intros e He b. apply He.
  - intros segs H b.
    apply (visit_all_inv (fun seg b => visit_all expression (snd seg) (expression (fst seg) b)) keeps); try assumption.
    apply (Forall_imp _ _ _ H). intros [e os] [He Hos] b1. cbn [fst snd].
    apply KT with (expression e b1); [apply He|apply (visit_all_inv expression keeps); assumption].
  - intros b es Hb Hes b0. apply KT with (expression b b0); [apply Hb|].
    apply (visit_all_inv expression keeps); assumption.
  - intros args ss Hss b. split; [|reflexivity]. apply (grows_trans b (visit_all define_option args b)).
    + apply args_grow.
    + apply grows_names. apply (statements_keeps ss (visit_all define_option args b) Hss).
  - intros es cs Hes Hcs b. cbn [expression].
    assert (H1 : keeps b (visit_all expression es b)) by (apply (visit_all_inv expression keeps); assumption).
    destruct cs as [cs|]; [|exact H1].
    apply KT with (visit_all expression es b); [exact H1|].
    apply (visit_all_inv visit_clause keeps); assumption.
  - intros e He b. apply He.
  - intros p v m Hv Hm b. cbn [visit_statement].
    apply (grows_trans b (expression v b)); [apply Hv|].
    apply (grows_trans _ (visit_pattern p (expression v b))); [apply pattern_grows|].
    apply (visit_option_inv expression keeps); assumption.
  - intros c ps Hc b. cbn [visit_statement]. apply (grows_trans b (expression c b)); [apply Hc|].
    apply visit_all_inv; [apply grows_refl|apply grows_trans|apply Forall_all; apply pattern_grows].
  - intros v m Hv Hm b. cbn [visit_statement]. apply (grows_trans b (expression v b)); [apply Hv|].
    apply (visit_option_inv expression keeps); assumption.
  - intros ps alts g e He b. cbn [visit_clause]. split; [|reflexivity]. apply grows_names.
    apply (grows_trans b (visit_all visit_pattern ps b)).
    { apply visit_all_inv; [apply grows_refl|apply grows_trans|apply Forall_all; apply pattern_grows]. }
    apply (grows_trans _ (visit_option visit_guard g (visit_all visit_pattern ps b))).
    + destruct g; [apply guard_grows|apply grows_refl].
    + apply He.
Qed.
Definition expression_keeps := proj1 trees_keep.
Definition statement_grows := proj1 (proj2 trees_keep).
Definition clause_keeps := proj2 (proj2 trees_keep).
Lemma patterns_grow ps b : grows b (visit_all visit_pattern ps b).
Proof. apply visit_all_inv; [apply grows_refl|apply grows_trans|apply Forall_all; apply pattern_grows]. Qed.
Lemma constants_grow ps b : grows b (visit_all visit_constant ps b).
Proof. apply visit_all_inv; [apply grows_refl|apply grows_trans|apply Forall_all; intros; apply constant_grows]. Qed.
Lemma expressions_keep es b : keeps b (visit_all expression es b).
Proof. apply visit_all_inv; [apply keeps_refl|apply keeps_trans|apply Forall_all; apply expression_keeps]. Qed.
Lemma clauses_keep es b : keeps b (visit_all visit_clause es b).
Proof. apply visit_all_inv; [apply keeps_refl|apply keeps_trans|apply Forall_all; apply clause_keeps]. Qed.
Lemma statements_grow es b : grows b (visit_all visit_statement es b).
Proof. apply visit_all_inv; [apply grows_refl|apply grows_trans|apply Forall_all; apply statement_grows]. Qed.

(** ** The names after a pattern *)
Definition hides (bound : text -> Prop) (b b' : builder) : Prop :=
  forall n, (bound n -> lookup n (names b') = Some None) /\ (~ bound n -> lookup n (names b') = lookup n (names b)).
Lemma hides_trans P Q b b' b'' : hides P b b' -> hides Q b' b'' -> hides (fun n => P n \/ Q n) b b''.
Proof.
  intros H1 H2 n. destruct (H1 n) as [A1 B1]. destruct (H2 n) as [A2 B2]. split.
  - (* bound later, or kept *)
    intros H. destruct (lookup n (names b'')) as [[x|]|] eqn:E; [| reflexivity |].
    + exfalso. assert (~ Q n) as NQ by (intros q; specialize (A2 q); congruence).
      destruct H as [p|q]; [|contradiction]. specialize (B2 NQ). specialize (A1 p). congruence.
    + exfalso. assert (~ Q n) as NQ by (intros q; specialize (A2 q); congruence).
      destruct H as [p|q]; [|contradiction]. specialize (B2 NQ). specialize (A1 p). congruence.
  - intros H. rewrite B2, B1; tauto.
Qed.
Lemma hides_ext P Q b b' : hides P b b' -> (forall n, P n <-> Q n) -> hides Q b b'.
Proof. intros H E n. destruct (H n) as [A B]. split; intros X; [apply A|apply B]; rewrite (E n); exact X. Qed.
Lemma hides_same b b' : names b' = names b -> hides nothing b b'.
Proof. intros E n. split; [intros []|intros _; rewrite E; reflexivity]. Qed.
Lemma hides_define m b : hides (eq m) b (define m b).
Proof.
  intros n. unfold define, with_names. cbn [names]. split.
  - intros ->. apply lookup_eq.
  - intros H. apply lookup_neq. congruence.
Qed.
Lemma hides_define_option m b : hides (fun n => m = Some n) b (define_option m b).
Proof.
  destruct m as [m|]; cbn [define_option].
  - apply (hides_ext (eq m)); [apply hides_define|]. intros n. split; congruence.
  - apply (hides_ext nothing); [apply hides_same; reflexivity|]. intros n. split; [intros []|discriminate].
Qed.
Lemma hides_all {A} (f : A -> builder -> builder) (B : A -> text -> Prop) l :
  Forall (fun a => forall b, hides (B a) b (f a b)) l ->
  forall b, hides (fun n => exists a, In a l /\ B a n) b (visit_all f l b).
Proof.
  induction l as [|a l IH]; intros H b.
  - apply (hides_ext nothing); [apply hides_same; reflexivity|]. intros n. split; [intros []|intros (a & [] & _)].
  - inversion H; subst. cbn.
    apply (hides_ext (fun n => B a n \/ exists a, In a l /\ B a n)).
    + apply (hides_trans _ _ b (f a b)); [auto|apply IH; assumption].
    + intros n. split.
      * intros [Ha|(a' & Hin & Ha)]; [exists a; split; [left; reflexivity|exact Ha]|exists a'; split; [right; exact Hin|exact Ha]].
      * intros (a' & [->|Hin] & Ha); [left; exact Ha|right; exists a'; split; assumption].
Qed.
Lemma pattern_hides p : forall b, hides (binds Possible p) b (visit_pattern p b).
Proof.
  induction p using pattern_ind'; intros b0; cbn [visit_pattern].
  - apply (hides_ext nothing); [apply hides_same; reflexivity|]. intros n. split; [intros []|intros H; inversion H].
  - apply (hides_ext (fun n => r = Some n)); [apply hides_define_option|]. intros n. split.
    + intros ->. constructor.
    + intros H. inversion H; subst; [contradiction|reflexivity].
  - apply (hides_ext (eq n)); [apply hides_define|]. intros m. split; [intros ->; constructor|].
    intros H. inversion H. reflexivity.
  - eapply hides_ext; [apply (hides_all visit_pattern (binds Possible)); exact H|]. intros n. split.
    + intros (p & Hin & Hp). apply b_tuple with p; assumption.
    + intros Hb. inversion Hb; subst. exists p. split; assumption.
  - assert (Ht : hides (fun n => exists p, t = Some p /\ binds Possible p n) (visit_all visit_pattern ps b0)
                   (visit_option visit_pattern t (visit_all visit_pattern ps b0))).
    { destruct t as [p|]; cbn [visit_option].
      - eapply hides_ext; [apply H0|]. intros n. split; [intros Hp; exists p; split; [reflexivity|exact Hp]|].
        intros (p' & [= <-] & Hp). exact Hp.
      - apply (hides_ext nothing); [apply hides_same; reflexivity|]. intros n. split; [intros []|intros (p & E & _); discriminate E]. }
    eapply hides_ext; [eapply hides_trans; [apply (hides_all visit_pattern (binds Possible)); exact H|exact Ht]|]. intros n. split.
    + intros [(p & Hin & Hp)|(p & -> & Hp)]; [apply b_list with p; assumption|apply b_tail; assumption].
    + intros Hb. inversion Hb; subst; [left; exists p; split; assumption|right; exists p; split; [reflexivity|assumption]].
  - eapply hides_ext; [eapply hides_trans; [apply hides_define|apply IHp]|]. intros m. split.
    + intros [->|Hp]; [apply b_assign|apply b_assigned; exact Hp].
    + intros Hb. inversion Hb; subst; [left; reflexivity|right; assumption].
  - eapply hides_ext; [apply (hides_all visit_pattern (binds Possible)); exact H|]. intros n. split.
    + intros (p & Hin & Hp). apply b_constructor with p; assumption.
    + intros Hb. inversion Hb; subst. exists p. split; assumption.
  - eapply hides_ext.
    + apply (hides_all (fun seg b => visit_pattern (snd seg) (visit_all bit_array_size (fst seg) b))
        (fun seg n => binds Possible (snd seg) n)).
      apply (Forall_imp _ _ _ H). intros [os p] Hp b1. cbn [fst snd] in *.
      eapply hides_ext; [eapply hides_trans; [apply hides_same; apply sizes_names|apply Hp]|].
      intros n. unfold nothing. tauto.
    + intros n. split.
      * intros ([os p] & Hin & Hp). apply b_segment with os p; assumption.
      * intros Hb. inversion Hb; subst. exists (os, p). split; assumption.
Qed.
Lemma patterns_hide ps b : hides (some_binds Possible ps) b (visit_all visit_pattern ps b).
Proof. apply (hides_all visit_pattern (binds Possible)). apply Forall_all. apply pattern_hides. Qed.
Lemma binds_possible k p n : binds Possible p n -> binds k p n.
Proof.
  induction p using pattern_ind'; intros Hb; inversion Hb; subst; try contradiction;
    try (rewrite Forall_forall in *).
  - constructor.
  - constructor.
  - apply b_tuple with p; auto.
  - apply b_list with p; auto.
  - apply b_tail. auto.
  - apply b_assign.
  - apply b_assigned. auto.
  - apply b_constructor with p; auto.
  - apply b_segment with os p; [assumption|]. apply (H (os, p)); assumption.
Qed.
Lemma some_binds_possible k ps n : some_binds Possible ps n -> some_binds k ps n.
Proof. intros (p & Hin & Hp). exists p. split; [exact Hin|apply binds_possible; exact Hp]. Qed.

(** ** The definitions the names stand for *)
Section Definitions.
  Variable defs : text -> option nat.
  (** Every definition that is not hidden by [sh] is found. *)
  Definition finds (sh : text -> Prop) (b : builder) : Prop :=
    forall n i, defs n = Some i -> ~ sh n -> exists l, lookup n (names b) = Some (Some (i, l)).
  (** Only definitions that are not hidden by [sh] are found. *)
  Definition only (sh : text -> Prop) (b : builder) : Prop :=
    forall n i l, lookup n (names b) = Some (Some (i, l)) -> defs n = Some i /\ ~ sh n.

  Lemma finds_same sh b b' : finds sh b -> names b' = names b -> finds sh b'.
  Proof. intros H E n i Hd Hn. rewrite E. apply (H n i Hd Hn). Qed.
  Lemma finds_weaken (sh sh' : text -> Prop) b : finds sh b -> (forall n, sh n -> sh' n) -> finds sh' b.
  Proof. intros H E n i Hd Hn. apply (H n i Hd). auto. Qed.
  Lemma finds_hides sh P b b' : finds sh b -> hides P b b' -> finds (also sh P) b'.
  Proof.
    intros H Hh n i Hd Hn. destruct (Hh n) as [_ B].
    assert (N1 : ~ P n) by (intros p; apply Hn; right; exact p).
    assert (N2 : ~ sh n) by (intros p; apply Hn; left; exact p).
    rewrite (B N1). apply (H n i Hd N2).
  Qed.
  Lemma finds_patterns k sh ps b :
    finds sh b -> finds (also sh (some_binds k ps)) (visit_all visit_pattern ps b).
  Proof.
    intros H. apply (finds_weaken (also sh (some_binds Possible ps))).
    - apply (finds_hides sh _ b); [exact H|apply patterns_hide].
    - intros n [Hn|Hn]; [left; exact Hn|right; apply some_binds_possible; exact Hn].
  Qed.
  Lemma only_same sh b b' : only sh b -> names b' = names b -> only sh b'.
  Proof. intros H E n i l. rewrite E. apply H. Qed.
  Lemma only_weaken (sh sh' : text -> Prop) b : only sh b -> (forall n, sh' n -> sh n) -> only sh' b.
  Proof. intros H E n i l Hl. destruct (H n i l Hl) as [A B]. split; [exact A|]. auto. Qed.
  Lemma only_hides sh P b b' : only sh b -> hides P b b' -> only (also sh P) b'.
  Proof.
    intros H Hh n i l Hl. destruct (Hh n) as [A B].
    assert (N1 : ~ P n) by (intros p; rewrite (A p) in Hl; discriminate).
    rewrite (B N1) in Hl. destruct (H n i l Hl) as [Hd Hs]. split; [exact Hd|].
    intros [X|X]; [exact (Hs X)|exact (N1 X)].
  Qed.

  Lemma referenced_finds sh n i b :
    finds sh b -> defs n = Some i -> ~ sh n -> In (current_function b, i) (edges (referenced n b)).
  Proof.
    intros H Hd Hn. destruct (H n i Hd Hn) as [l Hl]. unfold referenced. rewrite Hl. cbn [edges].
    apply in_or_app. right. left. reflexivity.
  Qed.
  Lemma referenced_only sh n c i b :
    only sh b -> In (c, i) (edges (referenced n b)) ->
    In (c, i) (edges b) \/ (c = current_function b /\ defs n = Some i /\ ~ sh n).
  Proof.
    intros H Hin. unfold referenced in Hin. destruct (lookup n (names b)) as [[[t l]|]|] eqn:E; auto.
    cbn [edges] in Hin. apply in_app_or in Hin. destruct Hin as [Hin|[Hin|[]]]; [left; exact Hin|right].
    injection Hin as <- <-. destruct (H n t l E) as [A B]. auto.
  Qed.

  (** *** Counted uses are recorded *)
  Definition records (b : builder) (n : text) (b' : builder) : Prop :=
    forall i, defs n = Some i -> In (current_function b, i) (edges b').
  Lemma records_later b b1 b2 n : grows b1 b2 -> records b n b1 -> records b n b2.
  Proof. intros G H i Hd. apply (grows_in b1 b2 _ G). apply H. exact Hd. Qed.
  Lemma records_after b b1 b2 n : grows b b1 -> records b1 n b2 -> records b n b2.
  Proof. intros (_ & C & _) H i Hd. rewrite <- C. apply H. exact Hd. Qed.
  Lemma records_in {A} (f : A -> builder -> builder) l a b n :
    (forall a b, keeps b (f a b)) -> In a l ->
    (forall b', names b' = names b -> records b' n (f a b')) -> records b n (visit_all f l b).
  Proof.
    intros K Hin H. apply in_split in Hin. destruct Hin as (l1 & l2 & ->). rewrite visit_all_split.
    assert (KA : forall l b, keeps b (visit_all f l b)).
    { intros l b0. apply visit_all_inv; [apply keeps_refl|apply keeps_trans|apply Forall_all; apply K]. }
    apply records_later with (f a (visit_all f l1 b)); [apply KA|].
    apply records_after with (visit_all f l1 b); [apply KA|]. apply H. apply KA.
  Qed.

  Lemma size_records sh s n : size_uses sh s n -> forall b, finds sh b -> records b n (bit_array_size s b).
  Proof.
    induction 1 as [n Hn|l r n H IH|l r n H IH|s n H IH]; intros b Hf; cbn [bit_array_size].
    - intros i Hd. apply (referenced_finds sh); assumption.
    - apply records_later with (bit_array_size l b); [apply size_grows|auto].
    - apply records_after with (bit_array_size l b); [apply size_grows|]. apply IH.
      apply (finds_same sh b); [exact Hf|apply size_names].
    - auto.
  Qed.
  Lemma size_keeps s b : keeps b (bit_array_size s b).
  Proof. split; [apply size_grows|apply size_names]. Qed.
  Lemma constant_keeps s b : keeps b (visit_constant s b).
  Proof. split; [apply constant_grows|apply constant_names]. Qed.
  Lemma constants_keep s b : keeps b (visit_all visit_constant s b).
  Proof. apply visit_all_inv; [apply keeps_refl|apply keeps_trans|apply Forall_all; apply constant_keeps]. Qed.
  Lemma guard_keeps s b : keeps b (visit_guard s b).
  Proof. split; [apply guard_grows|apply guard_names]. Qed.

  Lemma constant_records sh c n : constant_uses sh c n -> forall b, finds sh b -> records b n (visit_constant c b).
  Proof.
    intros Hu. induction Hu; intros b0 Hf; cbn [visit_constant visit_option].
    - auto.
    - apply records_later with (visit_all visit_constant es b0); [apply visit_option_inv; [apply grows_refl|]|].
      + destruct t; [intros b; apply constant_grows|exact I].
      + apply records_in with c; [apply constant_keeps|assumption|].
        intros b' E. apply IHHu. apply (finds_same sh b0); assumption.
    - apply records_after with (visit_all visit_constant es b0); [apply constants_grow|].
      apply IHHu. apply (finds_same sh b0); [assumption|apply constants_keep].
    - apply records_in with c; [apply constant_keeps|assumption|].
      intros b' E. apply IHHu. apply (finds_same sh b0); assumption.
    - apply records_in with c; [apply constant_keeps|assumption|].
      intros b' E. apply IHHu. apply (finds_same sh b0); assumption.
    - apply records_later with (visit_constant b b0); [apply constants_grow|]. auto.
    - apply records_after with (visit_constant b b0); [apply constant_grows|].
      apply records_in with c; [apply constant_keeps|assumption|].
      intros b' E. apply IHHu. apply (finds_same sh b0); [assumption|]. rewrite E. apply constant_names.
    - intros i Hd. apply (referenced_finds sh); assumption.
    - apply (records_in (fun seg b => visit_constant (snd seg) (visit_all visit_constant (fst seg) b)) segs (os, c)).
      + intros [os' c'] b. apply keeps_trans with (visit_all visit_constant os' b); [apply constants_keep|apply constant_keeps].
      + assumption.
      + intros b' E. cbn [fst snd]. apply records_later with (visit_all visit_constant os b'); [apply constant_grows|].
        apply records_in with o; [apply constant_keeps|assumption|].
        intros b'' E'. apply IHHu. apply (finds_same sh b0); [assumption|congruence].
    - apply (records_in (fun seg b => visit_constant (snd seg) (visit_all visit_constant (fst seg) b)) segs (os, c)).
      + intros [os' c'] b. apply keeps_trans with (visit_all visit_constant os' b); [apply constants_keep|apply constant_keeps].
      + assumption.
      + intros b' E. cbn [fst snd]. apply records_after with (visit_all visit_constant os b'); [apply constants_grow|].
        apply IHHu. apply (finds_same sh b0); [assumption|]. rewrite <- E. apply constants_keep.
    - apply records_later with (visit_constant l b0); [apply constant_grows|auto].
    - apply records_after with (visit_constant l b0); [apply constant_grows|]. apply IHHu.
      apply (finds_same sh b0); [exact Hf|apply constant_names].
  Qed.
  Lemma guard_records sh c n : guard_uses Counted sh c n -> forall b, finds sh b -> records b n (visit_guard c b).
  Proof.
    intros Hu. induction Hu; intros b0 Hf; cbn [visit_guard].
    - apply records_later with (visit_guard l b0); [apply guard_grows|auto].
    - apply records_after with (visit_guard l b0); [apply guard_grows|]. apply IHHu.
      apply (finds_same sh b0); [exact Hf|apply guard_names].
    - auto.
    - intros i Hd. apply (referenced_finds sh); assumption.
    - discriminate.
    - apply (constant_records sh); assumption.
  Qed.

  Lemma patterns_records_one k ps p qs n b :
    (forall b', hides (some_binds Possible ps) b b' -> grows b b' -> records b' n (visit_pattern p b')) ->
    k = Counted -> records b n (visit_all visit_pattern (ps ++ p :: qs) b).
  Proof.
    intros H _. rewrite visit_all_split.
    apply records_later with (visit_pattern p (visit_all visit_pattern ps b)); [apply patterns_grow|].
    apply records_after with (visit_all visit_pattern ps b); [apply patterns_grow|].
    apply H; [apply patterns_hide|apply patterns_grow].
  Qed.
  Lemma also_assoc sh P Q b : finds (also (also sh P) Q) b -> finds (also sh (also P Q)) b.
  Proof. intros H. apply (finds_weaken _ _ _ H). unfold also. tauto. Qed.
  Definition visit_segment (seg : list size * pattern) (b : builder) : builder :=
    visit_pattern (snd seg) (visit_all bit_array_size (fst seg) b).
  Lemma segment_grows seg b : grows b (visit_segment seg b).
  Proof. apply (grows_trans b (visit_all bit_array_size (fst seg) b)); [apply sizes_grow|apply pattern_grows]. Qed.
  Lemma segments_grow segs b : grows b (visit_all visit_segment segs b).
  Proof. apply visit_all_inv; [apply grows_refl|apply grows_trans|apply Forall_all; apply segment_grows]. Qed.
  Lemma segments_hide segs b : hides (some_binds Possible (map snd segs)) b (visit_all visit_segment segs b).
  Proof.
    eapply hides_ext.
    - apply (hides_all visit_segment (fun seg n => binds Possible (snd seg) n)). apply Forall_all.
      intros [os p] b1. unfold visit_segment. cbn [fst snd].
      eapply hides_ext; [eapply hides_trans; [apply hides_same; apply sizes_names|apply pattern_hides]|].
      intros n. unfold nothing. tauto.
    - intros n. unfold some_binds. split.
      + intros (seg & Hin & Hp). exists (snd seg). split; [apply in_map; exact Hin|exact Hp].
      + intros (p & Hin & Hp). apply in_map_iff in Hin. destruct Hin as (seg & <- & Hin). exists seg. auto.
  Qed.
  Lemma pattern_records sh before p n :
    pattern_uses Counted sh before p n -> forall b, finds (also sh before) b -> records b n (visit_pattern p b).
  Proof.
    assert (Step : forall ps p qs n sh before,
      (forall b, finds (also sh (also before (some_binds Counted ps))) b -> records b n (visit_pattern p b)) ->
      forall b, finds (also sh before) b -> records b n (visit_all visit_pattern (ps ++ p :: qs) b)).
    { intros ps p0 qs n0 sh0 before0 IH b Hf. apply (patterns_records_one Counted); [|reflexivity].
      intros b' Hh _. apply IH. apply also_assoc. apply (finds_weaken (also (also sh0 before0) (some_binds Possible ps))).
      - apply (finds_hides _ _ b b'); assumption.
      - intros m [Hm|Hm]; [left; exact Hm|right; apply some_binds_possible; exact Hm]. }
    intros Hu. induction Hu; intros b Hf; cbn [visit_pattern].
    - apply (Step ps p qs n sh before); assumption.
    - apply records_later with (visit_all visit_pattern (ps ++ p :: qs) b).
      + destruct t; [apply pattern_grows|apply grows_refl].
      + apply (Step ps p qs n sh before); assumption.
    - cbn [visit_option]. apply records_after with (visit_all visit_pattern ps b); [apply patterns_grow|].
      apply IHHu. apply also_assoc. apply finds_patterns. exact Hf.
    - apply records_after with (define m b); [apply define_grows|]. apply IHHu. apply also_assoc.
      apply (finds_hides _ _ b); [exact Hf|apply hides_define].
    - apply (Step ps p qs n sh before); assumption.
    - change (records b n (visit_all visit_segment (segs ++ (os, p) :: segs') b)).
      rewrite visit_all_split.
      apply records_later with (visit_segment (os, p) (visit_all visit_segment segs b)); [apply segments_grow|].
      apply records_after with (visit_all visit_segment segs b); [apply segments_grow|].
      unfold visit_segment at 1. cbn [fst snd].
      apply records_later with (visit_all bit_array_size os (visit_all visit_segment segs b)); [apply pattern_grows|].
      apply records_in with o; [apply size_keeps|assumption|]. intros b' E.
      intros i Hd. apply (size_records (also (also sh before) (some_binds Counted (map snd segs))) o n).
      + assert (X : ~ before n) by auto. clear - H0 X. induction H0; [constructor|apply su_left|apply su_right|apply su_block]; auto.
        unfold also in *. tauto.
      + apply (finds_same _ (visit_all visit_segment segs b)); [|exact E].
        apply (finds_weaken (also (also sh before) (some_binds Possible (map snd segs)))).
        * apply (finds_hides _ _ b); [exact Hf|apply segments_hide].
        * intros m [Hm|Hm]; [left; exact Hm|right; apply some_binds_possible; exact Hm].
      + exact Hd.
    - change (records b n (visit_all visit_segment (segs ++ (os, p) :: segs') b)).
      rewrite visit_all_split.
      apply records_later with (visit_segment (os, p) (visit_all visit_segment segs b)); [apply segments_grow|].
      apply records_after with (visit_all visit_segment segs b); [apply segments_grow|].
      unfold visit_segment at 1. cbn [fst snd].
      apply records_after with (visit_all bit_array_size os (visit_all visit_segment segs b)); [apply sizes_grow|].
      apply IHHu. apply (finds_same _ (visit_all visit_segment segs b)); [|apply sizes_names].
      apply (finds_weaken (also (also sh before) (some_binds Possible (map snd segs)))).
      * apply (finds_hides _ _ b); [exact Hf|apply segments_hide].
      * intros m [[Hm|Hm]|Hm]; [left; left; exact Hm|right; exact Hm|left; right; apply some_binds_possible; exact Hm].
  Qed.
  Lemma patterns_record sh ps n :
    patterns_use Counted sh ps n -> forall b, finds sh b -> records b n (visit_all visit_pattern ps b).
  Proof.
    intros [ps' p qs n' Hu] b Hf. apply (patterns_records_one Counted); [|reflexivity].
    intros b' Hh _. apply (pattern_records sh (some_binds Counted ps')); [exact Hu|].
    apply (finds_weaken (also sh (some_binds Possible ps'))).
    - apply (finds_hides _ _ b b'); assumption.
    - intros m [Hm|Hm]; [left; exact Hm|right; apply some_binds_possible; exact Hm].
  Qed.

  Lemma statement_hides s b : hides (statement_binds Possible s) b (visit_statement s b).
  Proof.
    destruct s as [e|p v m|c ps|v m]; cbn [visit_statement statement_binds].
    - apply hides_same. apply expression_keeps.
    - eapply hides_ext; [eapply hides_trans; [eapply hides_trans; [apply hides_same; apply (expression_keeps v b)|apply pattern_hides]|]|].
      + apply hides_same. destruct m as [m|]; [apply expression_keeps|reflexivity].
      + intros n. unfold nothing. tauto.
    - eapply hides_ext; [eapply hides_trans; [apply hides_same; apply (expression_keeps c b)|apply patterns_hide]|].
      intros n. unfold nothing. tauto.
    - apply hides_same. destruct m as [m|]; cbn [visit_option]; [|apply expression_keeps].
      rewrite (proj2 (expression_keeps m (expression v b))). apply expression_keeps.
  Qed.
  Lemma statements_hide ss b : hides (statements_bind Possible ss) b (visit_all visit_statement ss b).
  Proof. apply (hides_all visit_statement (statement_binds Possible)). apply Forall_all. apply statement_hides. Qed.
  Lemma statement_binds_possible k s n : statement_binds Possible s n -> statement_binds k s n.
  Proof.
    destruct s; cbn [statement_binds]; auto; [apply binds_possible|apply some_binds_possible].
  Qed.
  Lemma statements_bind_possible k s n : statements_bind Possible s n -> statements_bind k s n.
  Proof. intros (s' & Hin & H). exists s'. split; [exact Hin|apply statement_binds_possible; exact H]. Qed.
  Lemma args_hide args b : hides (fun a => In (Some a) args) b (visit_all define_option args b).
  Proof.
    eapply hides_ext; [apply (hides_all define_option (fun m n => m = Some n)); apply Forall_all; apply hides_define_option|].
    intros n. split; [intros (a & Hin & ->); exact Hin|intros H; exists (Some n); split; [exact H|reflexivity]].
  Qed.

  Lemma uses_recorded :
    forall sh, (forall e n, uses Counted sh e n -> forall b, finds sh b -> records b n (expression e b)) /\
    (forall ss n, statements_use Counted sh ss n -> forall b, finds sh b -> records b n (visit_all visit_statement ss b)) /\
    (forall s n, statement_uses Counted sh s n -> forall b, finds sh b -> records b n (visit_statement s b)) /\
    (forall c n, clause_uses Counted sh c n -> forall b, finds sh b -> records b n (visit_clause c b)).
  Proof.
    assert (InE : forall sh es e n b, In e es -> (forall b, finds sh b -> records b n (expression e b)) ->
      finds sh b -> records b n (visit_all expression es b)).
    { intros sh es e n b Hin IH Hf. apply records_in with e; [apply expression_keeps|exact Hin|].
      intros b' E. apply IH. apply (finds_same sh b); assumption. }
    assert (AfterE : forall sh e b b2 n, finds sh b ->
      (forall b', finds sh b' -> records b' n (b2 b')) -> records b n (b2 (expression e b))).
    { intros sh e b b2 n Hf H. apply records_after with (expression e b); [apply expression_keeps|].
      apply H. apply (finds_same sh b); [exact Hf|apply expression_keeps]. }
    assert (OptGrow : forall o b, grows b (visit_option expression o b)).
    { intros [e|] b; [apply expression_keeps|apply grows_refl]. }
    apply (uses_all_mut Counted
      (fun sh e n => forall b, finds sh b -> records b n (expression e b))
      (fun sh ss n => forall b, finds sh b -> records b n (visit_all visit_statement ss b))
      (fun sh s n => forall b, finds sh b -> records b n (visit_statement s b))
      (fun sh c n => forall b, finds sh b -> records b n (visit_clause c b))).
    - intros sh m n _ IH b Hf. apply IH. exact Hf.
    - intros sh e m n _ IH b Hf. cbn [expression].
      apply records_later with (expression e b); [apply OptGrow|auto].
    - intros sh e m n _ IH b Hf. cbn [expression]. apply records_after with (visit_option expression e b); [apply OptGrow|].
      apply IH. apply (finds_same sh b); [exact Hf|]. destruct e; [apply expression_keeps|reflexivity].
    - intros sh n Hn b Hf i Hd. apply (referenced_finds sh); assumption.
    - intros sh f es n _ IH b Hf. apply records_later with (expression f b); [apply expressions_keep|auto].
    - intros sh f es e n Hin _ IH b Hf. apply (AfterE sh f b (visit_all expression es)); [exact Hf|].
      intros b' Hf'. apply (InE sh es e); assumption.
    - intros sh es e n Hin _ IH b Hf. apply (InE sh es e); assumption.
    - intros sh es e n Hin _ IH b Hf. apply (InE sh es e); assumption.
    - intros sh ss n _ IH b Hf. apply (IH b Hf).
    - intros sh l r n _ IH b Hf. cbn [expression]. apply records_later with (expression l b); [apply expression_keeps|auto].
    - intros sh l r n _ IH b Hf. cbn [expression]. apply (AfterE sh l b (expression r)); assumption.
    - intros sh es t e n Hin _ IH b Hf. apply records_later with (visit_all expression es b); [apply OptGrow|].
      apply (InE sh es e); assumption.
    - intros sh es e n _ IH b Hf. apply records_after with (visit_all expression es b); [apply expressions_keep|].
      apply IH. apply (finds_same sh b); [exact Hf|apply expressions_keep].
    - intros sh e n _ IH b Hf. apply IH. exact Hf.
    - intros sh segs e os n Hin _ IH b Hf.
      apply (records_in (fun seg b => visit_all expression (snd seg) (expression (fst seg) b)) segs (e, os)); [|exact Hin|].
      + intros [e' os'] b'. apply keeps_trans with (expression e' b'); [apply expression_keeps|apply expressions_keep].
      + intros b' E. cbn [fst snd]. apply records_later with (expression e b'); [apply expressions_keep|].
        apply IH. apply (finds_same sh b); assumption.
    - intros sh segs e os o n Hin Hino _ IH b Hf.
      apply (records_in (fun seg b => visit_all expression (snd seg) (expression (fst seg) b)) segs (e, os)); [|exact Hin|].
      + intros [e' os'] b'. apply keeps_trans with (expression e' b'); [apply expression_keeps|apply expressions_keep].
      + intros b' E. cbn [fst snd]. apply (AfterE sh e b' (visit_all expression os)).
        * apply (finds_same sh b); assumption.
        * intros b'' Hf'. apply (InE sh os o); assumption.
    - intros sh f es n _ IH b Hf. apply records_later with (expression f b); [apply expressions_keep|auto].
    - intros sh f es e n Hin _ IH b Hf. apply (AfterE sh f b (visit_all expression es)); [exact Hf|].
      intros b' Hf'. apply (InE sh es e); assumption.
    - intros sh args ss n _ IH b Hf. apply (records_after b (visit_all define_option args b)); [apply args_grow|].
      apply (IH (visit_all define_option args b)). apply (finds_hides _ _ b); [exact Hf|apply args_hide].
    - intros sh es cs e n Hin _ IH b Hf. cbn [expression].
      apply records_later with (visit_all expression es b); [destruct cs; [apply clauses_keep|apply grows_refl]|].
      apply (InE sh es e); assumption.
    - intros sh es cs c n Hin _ IH b Hf. cbn [expression].
      apply records_after with (visit_all expression es b); [apply expressions_keep|].
      apply records_in with c; [apply clause_keeps|exact Hin|]. intros b' E. apply IH.
      apply (finds_same sh b); [exact Hf|]. rewrite E. apply expressions_keep.
    - intros sh ss s ss' n _ IH b Hf. rewrite visit_all_split.
      apply records_later with (visit_statement s (visit_all visit_statement ss b)); [apply statements_grow|].
      apply records_after with (visit_all visit_statement ss b); [apply statements_grow|].
      apply IH. apply (finds_weaken (also sh (statements_bind Possible ss))).
      + apply (finds_hides _ _ b); [exact Hf|apply statements_hide].
      + intros m [Hm|Hm]; [left; exact Hm|right; apply statements_bind_possible; exact Hm].
    - intros sh e n _ IH b Hf. apply IH. exact Hf.
    - intros sh p e m n _ IH b Hf. cbn [visit_statement].
      apply records_later with (visit_pattern p (expression e b)); [apply OptGrow|].
      apply records_later with (expression e b); [apply pattern_grows|auto].
    - intros sh p e m n Hp b Hf. cbn [visit_statement].
      apply records_later with (visit_pattern p (expression e b)); [apply OptGrow|].
      apply (AfterE sh e b (visit_pattern p)); [exact Hf|]. intros b' Hf'.
      apply (pattern_records sh nothing); [exact Hp|]. apply (finds_weaken sh); [exact Hf'|].
      intros x Hx. left. exact Hx.
    - intros sh p e m n _ _ _ IH b Hf. cbn [visit_statement visit_option].
      apply records_after with (expression e b); [apply expression_keeps|].
      apply records_after with (visit_pattern p (expression e b)); [apply pattern_grows|].
      apply (IH eq_refl). apply (finds_weaken (also sh (binds Possible p))).
      + apply (finds_hides _ _ (expression e b)); [|apply pattern_hides].
        apply (finds_same sh b); [exact Hf|apply expression_keeps].
      + intros x [Hx|Hx]; [left; exact Hx|right; apply binds_possible; exact Hx].
    - intros sh e ps n _ IH b Hf. cbn [visit_statement].
      apply records_later with (expression e b); [apply patterns_grow|auto].
    - intros sh e ps p qs n Hp b Hf. cbn [visit_statement].
      apply (AfterE sh e b (visit_all visit_pattern (ps ++ p :: qs))); [exact Hf|]. intros b' Hf'.
      apply (patterns_records_one Counted); [|reflexivity]. intros b'' Hh _.
      apply (pattern_records _ _ _ _ Hp). apply (finds_weaken (also sh (some_binds Possible ps))).
      + apply (finds_hides _ _ b' b''); assumption.
      + intros x [Hx|Hx]; [left; left; exact Hx|left; right; left; apply some_binds_possible; exact Hx].
    - intros sh e m n _ IH b Hf. cbn [visit_statement]. apply records_later with (expression e b); [apply OptGrow|auto].
    - intros sh e m n _ IH b Hf. cbn [visit_statement visit_option]. apply (AfterE sh e b (expression m)); assumption.
    - intros sh ps alts g e n Hp b Hf. cbn [visit_clause].
      apply (records_later b (visit_all visit_pattern ps b)).
      + apply grows_names. apply (grows_trans _ (visit_option visit_guard g (visit_all visit_pattern ps b)));
          [destruct g; [apply guard_grows|apply grows_refl]|apply expression_keeps].
      + apply (patterns_record sh); assumption.
    - intros sh ps alts alt g e n Hk. contradiction.
    - intros sh ps alts g e n Hg b Hf. cbn [visit_clause visit_option].
      apply (records_later b (visit_guard g (visit_all visit_pattern ps b))); [apply grows_names; apply expression_keeps|].
      apply records_after with (visit_all visit_pattern ps b); [apply patterns_grow|].
      apply (guard_records _ _ _ Hg). apply finds_patterns. exact Hf.
    - intros sh ps alts g e n _ IH b Hf. cbn [visit_clause].
      apply (records_after b (visit_all visit_pattern ps b)); [apply patterns_grow|].
      apply (records_after _ (visit_option visit_guard g (visit_all visit_pattern ps b)));
        [destruct g; [apply guard_grows|apply grows_refl]|].
      apply (IH (visit_option visit_guard g (visit_all visit_pattern ps b))).
      apply (finds_same _ (visit_all visit_pattern ps b)); [apply finds_patterns; exact Hf|].
      destruct g; [apply guard_names|reflexivity].
  Qed.

  (** *** Only possible uses are recorded *)
  Definition explains (b b' : builder) (U : text -> Prop) : Prop :=
    forall c i, In (c, i) (edges b') ->
      In (c, i) (edges b) \/ (c = current_function b /\ exists n, defs n = Some i /\ U n).
  Lemma explains_refl b U : explains b b U.
  Proof. intros c i H. left. exact H. Qed.
  Lemma explains_same b b' U : edges b' = edges b -> explains b b' U.
  Proof. intros E c i H. left. rewrite <- E. exact H. Qed.
  Lemma explains_weaken b b' (U V : text -> Prop) : explains b b' U -> (forall n, U n -> V n) -> explains b b' V.
  Proof.
    intros H E c i Hin. destruct (H c i Hin) as [X|(Hc & n & Hd & Hu)]; [left; exact X|right].
    split; [exact Hc|]. exists n. auto.
  Qed.
  Lemma explains_trans b b1 b2 U : grows b b1 -> explains b b1 U -> explains b1 b2 U -> explains b b2 U.
  Proof.
    intros (_ & C & _) H1 H2 c i Hin. destruct (H2 c i Hin) as [X|(Hc & Hx)]; [apply H1; exact X|right].
    split; [congruence|exact Hx].
  Qed.
  Lemma explains_all {A} (f : A -> builder -> builder) l b (U : text -> Prop) :
    (forall a b, grows b (f a b)) ->
    (forall l1 a l2, l = l1 ++ a :: l2 -> explains (visit_all f l1 b) (f a (visit_all f l1 b)) U) ->
    explains b (visit_all f l b) U.
  Proof.
    intros G H c i Hin.
    assert (GA : forall l b, grows b (visit_all f l b)).
    { intros l0 b0. apply visit_all_inv; [apply grows_refl|apply grows_trans|apply Forall_all; apply G]. }
    apply (visit_all_new f) with (l := l); [|exact Hin]. intros l1 a l2 E Hin'.
    destruct (H l1 a l2 E c i Hin') as [X|(Hc & Hx)]; [left; exact X|right].
    split; [|exact Hx]. rewrite Hc. apply (GA l1 b).
  Qed.
  (** The same for visits that leave the names alone. *)
  Lemma explains_in {A} (f : A -> builder -> builder) sh l b (W : A -> text -> Prop) :
    (forall a b, keeps b (f a b)) -> only sh b ->
    Forall (fun a => forall b, only sh b -> explains b (f a b) (W a)) l ->
    explains b (visit_all f l b) (fun n => exists a, In a l /\ W a n).
  Proof.
    intros K Ho H. apply explains_all; [intros a b0; apply K|]. intros l1 a l2 ->.
    rewrite Forall_forall in H. assert (Hin : In a (l1 ++ a :: l2)) by (apply in_or_app; right; left; reflexivity).
    apply explains_weaken with (W a).
    - apply (H a Hin). apply (only_same sh b); [exact Ho|].
      apply (visit_all_inv f keeps l1); [apply keeps_refl|apply keeps_trans|apply Forall_all; apply K].
    - intros n Hn. exists a. auto.
  Qed.

  Lemma size_only sh s : forall b, only sh b -> explains b (bit_array_size s b) (size_uses sh s).
  Proof.
    induction s as [|m|l IHl r IHr|s IH]; intros b Ho; cbn [bit_array_size].
    - apply explains_refl.
    - intros c i Hin. destruct (referenced_only sh _ _ _ _ Ho Hin) as [X|(Hc & Hd & Hn)]; [left; exact X|right].
      split; [exact Hc|]. exists m. split; [exact Hd|constructor; exact Hn].
    - apply explains_trans with (bit_array_size l b); [apply size_grows| |].
      + apply explains_weaken with (size_uses sh l); [apply IHl; exact Ho|apply su_left].
      + apply explains_weaken with (size_uses sh r); [|apply su_right].
        apply IHr. apply (only_same sh b); [exact Ho|apply size_names].
    - apply explains_weaken with (size_uses sh s); [apply IH; exact Ho|apply su_block].
  Qed.
  Lemma explains_option {A} (f : A -> builder -> builder) sh o b (W : A -> text -> Prop) :
    only sh b -> option_all (fun a => forall b, only sh b -> explains b (f a b) (W a)) o ->
    explains b (visit_option f o b) (fun n => exists a, o = Some a /\ W a n).
  Proof.
    intros Ho H. destruct o as [a|]; cbn [visit_option]; [|apply explains_refl].
    apply explains_weaken with (W a); [apply H; exact Ho|]. intros n Hn. exists a. auto.
  Qed.
  Lemma constant_only sh c : forall b, only sh b -> explains b (visit_constant c b) (constant_uses sh c).
  Proof.
    induction c using constant_ind'; intros b0 Ho; cbn [visit_constant].
    - apply explains_refl.
    - apply explains_weaken with (fun n => exists a, m = Some a /\ constant_uses sh a n).
      + apply (explains_option visit_constant sh); assumption.
      + intros n (a & -> & Ha). apply cu_todo. exact Ha.
    - apply explains_trans with (visit_all visit_constant ps b0); [apply constants_grow| |].
      + apply explains_weaken with (fun n => exists a, In a ps /\ constant_uses sh a n).
        * apply (explains_in visit_constant sh); [apply constant_keeps|exact Ho|exact H].
        * intros n (a & Hin & Ha). apply cu_list with a; assumption.
      + apply explains_weaken with (fun n => exists a, t = Some a /\ constant_uses sh a n).
        * apply (explains_option visit_constant sh); [|assumption]. apply (only_same sh b0); [exact Ho|apply constants_keep].
        * intros n (a & -> & Ha). apply cu_tail. exact Ha.
    - apply explains_weaken with (fun n => exists a, In a ps /\ constant_uses sh a n).
      + apply (explains_in visit_constant sh); [apply constant_keeps|exact Ho|exact H].
      + intros n (a & Hin & Ha). apply cu_tuple with a; assumption.
    - destruct ps as [ps|]; [|apply explains_refl].
      apply explains_weaken with (fun n => exists a, In a ps /\ constant_uses sh a n).
      + apply (explains_in visit_constant sh); [apply constant_keeps|exact Ho|exact H].
      + intros n (a & Hin & Ha). apply cu_record with a; assumption.
    - apply explains_trans with (visit_constant c b0); [apply constant_grows| |].
      + apply explains_weaken with (constant_uses sh c); [apply IHc; exact Ho|apply cu_base].
      + apply explains_weaken with (fun n => exists a, In a ps /\ constant_uses sh a n).
        * apply (explains_in visit_constant sh); [apply constant_keeps| |exact H].
          apply (only_same sh b0); [exact Ho|apply constant_names].
        * intros n (a & Hin & Ha). apply cu_update with a; assumption.
    - intros c i Hin. destruct (referenced_only sh _ _ _ _ Ho Hin) as [X|(Hc & Hd & Hn)]; [left; exact X|right].
      split; [exact Hc|]. exists n. split; [exact Hd|constructor; exact Hn].
    - apply explains_weaken with (fun n => exists seg, In seg segs /\
        ((exists o, In o (fst seg) /\ constant_uses sh o n) \/ constant_uses sh (snd seg) n)).
      + apply (explains_in (fun seg b => visit_constant (snd seg) (visit_all visit_constant (fst seg) b)) sh segs b0
          (fun seg n => (exists o, In o (fst seg) /\ constant_uses sh o n) \/ constant_uses sh (snd seg) n)).
        * intros [os c] b. apply keeps_trans with (visit_all visit_constant os b); [apply constants_keep|apply constant_keeps].
        * exact Ho.
        * apply (Forall_imp _ _ _ H). intros [os c] [Hos Hc] b Hob. cbn [fst snd] in *.
          apply explains_trans with (visit_all visit_constant os b); [apply constants_grow| |].
          -- apply explains_weaken with (fun n => exists a, In a os /\ constant_uses sh a n).
             ++ apply (explains_in visit_constant sh); [apply constant_keeps|exact Hob|exact Hos].
             ++ intros n Hn. left. exact Hn.
          -- apply explains_weaken with (constant_uses sh c); [|intros n Hn; right; exact Hn].
             apply Hc. apply (only_same sh b); [exact Hob|apply constants_keep].
      + intros n ([os c] & Hin & [(o & Hino & Hn)|Hn]); cbn [fst snd] in *.
        * apply cu_option with os o c; assumption.
        * apply cu_segment with os c; assumption.
    - apply explains_trans with (visit_constant c1 b0); [apply constant_grows| |].
      + apply explains_weaken with (constant_uses sh c1); [apply IHc1; exact Ho|apply cu_left].
      + apply explains_weaken with (constant_uses sh c2); [|apply cu_right].
        apply IHc2. apply (only_same sh b0); [exact Ho|apply constant_names].
  Qed.
  Lemma guard_only sh g : forall b, only sh b -> explains b (visit_guard g b) (guard_uses Possible sh g).
  Proof.
    induction g as [|l IHl r IHr|g IH|n|m|c]; intros b Ho; cbn [visit_guard].
    - apply explains_refl.
    - apply explains_trans with (visit_guard l b); [apply guard_grows| |].
      + apply explains_weaken with (guard_uses Possible sh l); [apply IHl; exact Ho|apply gu_left].
      + apply explains_weaken with (guard_uses Possible sh r); [|apply gu_right].
        apply IHr. apply (only_same sh b); [exact Ho|apply guard_names].
    - apply explains_weaken with (guard_uses Possible sh g); [apply IH; exact Ho|apply gu_unary].
    - intros c i Hin. destruct (referenced_only sh _ _ _ _ Ho Hin) as [X|(Hc & Hd & Hn)]; [left; exact X|right].
      split; [exact Hc|]. exists n. split; [exact Hd|constructor; exact Hn].
    - intros c i Hin. destruct (referenced_only sh _ _ _ _ Ho Hin) as [X|(Hc & Hd & Hn)]; [left; exact X|right].
      split; [exact Hc|]. exists m. split; [exact Hd|apply gu_module; [reflexivity|exact Hn]].
    - apply explains_weaken with (constant_uses sh c); [apply constant_only; exact Ho|apply gu_constant].
  Qed.
  Lemma only_more sh P b b' : only sh b -> hides P b b' -> only sh b'.
  Proof. intros Ho Hh. apply (only_weaken (also sh P)); [apply (only_hides sh P b b'); assumption|]. intros n Hn. left. exact Hn. Qed.
  Lemma pattern_only p : forall sh before b, only sh b ->
    explains b (visit_pattern p b) (pattern_uses Possible sh before p).
  Proof.
    assert (Step : forall ps sh before b (C : list pattern -> pattern),
      Forall (fun p => forall sh before b, only sh b -> explains b (visit_pattern p b) (pattern_uses Possible sh before p)) ps ->
      (forall ps' p qs n, pattern_uses Possible sh (also before (some_binds Possible ps')) p n ->
         pattern_uses Possible sh before (C (ps' ++ p :: qs)) n) ->
      only sh b -> explains b (visit_all visit_pattern ps b) (pattern_uses Possible sh before (C ps))).
    { intros ps sh before b C H HC Ho. apply explains_all; [intros; apply pattern_grows|].
      intros l1 a l2 ->. rewrite Forall_forall in H.
      apply explains_weaken with (pattern_uses Possible sh (also before (some_binds Possible l1)) a); [|apply HC].
      apply H; [apply in_or_app; right; left; reflexivity|].
      apply (only_more sh _ b _ Ho (patterns_hide l1 b)). }
    induction p using pattern_ind'; intros sh before b Ho; cbn [visit_pattern].
    - apply explains_refl.
    - destruct r; [apply explains_same; reflexivity|apply explains_refl].
    - apply explains_same. reflexivity.
    - apply (Step ps sh before b PTuple H); [intros; apply pu_tuple; assumption|exact Ho].
    - apply explains_trans with (visit_all visit_pattern ps b); [apply patterns_grow| |].
      + apply (Step ps sh before b (fun ps => PList ps t) H); [intros; apply pu_list; assumption|exact Ho].
      + destruct t as [p|]; cbn [visit_option]; [|apply explains_refl].
        apply explains_weaken with (pattern_uses Possible sh (also before (some_binds Possible ps)) p); [|apply pu_tail].
        apply H0. apply (only_more sh _ b _ Ho (patterns_hide ps b)).
    - apply explains_trans with (define n b); [apply define_grows|apply explains_same; reflexivity|].
      apply explains_weaken with (pattern_uses Possible sh (also before (eq n)) p); [|apply pu_assigned].
      apply IHp. apply (only_more sh _ b _ Ho (hides_define n b)).
    - apply (Step ps sh before b PConstructor H); [intros; apply pu_constructor; assumption|exact Ho].
    - change (explains b (visit_all visit_segment segs b) (pattern_uses Possible sh before (PBitArray segs))).
      apply explains_all; [intros; apply segment_grows|]. intros l1 [os p] l2 ->.
      unfold visit_segment at 2. cbn [fst snd].
      assert (Ho1 : only (also sh (some_binds Possible (map snd l1))) (visit_all visit_segment l1 b)).
      { apply (only_hides sh _ b); [exact Ho|apply segments_hide]. }
      apply explains_trans with (visit_all bit_array_size os (visit_all visit_segment l1 b)); [apply sizes_grow| |].
      + apply explains_weaken with (fun n => exists o, In o os /\ size_uses (also sh (some_binds Possible (map snd l1))) o n).
        * apply (explains_in bit_array_size (also sh (some_binds Possible (map snd l1)))); [apply size_keeps|exact Ho1|].
          apply Forall_all. intros o b1 Ho2. apply size_only. exact Ho2.
        * intros n (o & Hin & Hn). apply pu_option with o; [exact Hin|exact Hn|discriminate].
      + apply explains_weaken with (pattern_uses Possible (also sh (some_binds Possible (map snd l1))) before p);
          [|intros n Hn; apply pu_segment; exact Hn].
        rewrite Forall_forall in H.
        apply (H (os, p)); [apply in_or_app; right; left; reflexivity|].
        apply (only_same _ (visit_all visit_segment l1 b)); [exact Ho1|apply sizes_names].
  Qed.
  Lemma patterns_only ps sh b : only sh b -> explains b (visit_all visit_pattern ps b) (patterns_use Possible sh ps).
  Proof.
    intros Ho. apply explains_all; [intros; apply pattern_grows|]. intros l1 a l2 ->.
    apply explains_weaken with (pattern_uses Possible sh (some_binds Possible l1) a); [|apply psu].
    apply pattern_only. apply (only_more sh _ b _ Ho (patterns_hide l1 b)).
  Qed.
  Lemma statements_only ss sh b :
    Forall (fun s => forall sh b, only sh b -> explains b (visit_statement s b) (statement_uses Possible sh s)) ss ->
    only sh b -> explains b (visit_all visit_statement ss b) (statements_use Possible sh ss).
  Proof.
    intros H Ho. apply explains_all; [intros; apply statement_grows|]. intros l1 a l2 ->. rewrite Forall_forall in H.
    apply explains_weaken with (statement_uses Possible (also sh (statements_bind Possible l1)) a); [|apply ssu].
    apply H; [apply in_or_app; right; left; reflexivity|].
    apply (only_hides sh _ b); [exact Ho|apply statements_hide].
  Qed.

  Lemma trees_only :
    (forall e sh b, only sh b -> explains b (expression e b) (uses Possible sh e)) /\
    (forall s sh b, only sh b -> explains b (visit_statement s b) (statement_uses Possible sh s)) /\
    (forall c sh b, only sh b -> explains b (visit_clause c b) (clause_uses Possible sh c)).
  Proof.
    assert (ListE : forall es sh b, Forall (fun e => forall sh b, only sh b -> explains b (expression e b) (uses Possible sh e)) es ->
      only sh b -> explains b (visit_all expression es b) (fun n => exists e, In e es /\ uses Possible sh e n)).
    { intros es sh b H Ho. apply (explains_in expression sh es b (uses Possible sh)); [apply expression_keeps|exact Ho|].
      apply (Forall_imp _ _ _ H). intros a Ha b1. apply Ha. }
    assert (OptE : forall o sh b, option_all (fun e => forall sh b, only sh b -> explains b (expression e b) (uses Possible sh e)) o ->
      only sh b -> explains b (visit_option expression o b) (fun n => exists e, o = Some e /\ uses Possible sh e n)).
    { intros o sh b H Ho. apply (explains_option expression sh o b (uses Possible sh)); [exact Ho|].
      destruct o; [intros b1; apply H|exact I]. }
    assert (KeepE : forall e sh b, only sh b -> only sh (expression e b)).
    { intros e sh b Ho. apply (only_same sh b); [exact Ho|apply expression_keeps]. }
    assert (KeepEs : forall e sh b, only sh b -> only sh (visit_all expression e b)).
    { intros e sh b Ho. apply (only_same sh b); [exact Ho|apply expressions_keep]. }
    apply trees_ind.
    - intros sh b Ho. apply explains_refl.
    - intros m Hm sh b Ho. eapply explains_weaken; [apply (OptE m sh b Hm Ho)|].
      intros n (e & -> & He). apply u_message. exact He.
    - intros e m He Hm sh b Ho. cbn [expression].
      assert (Ho1 : only sh (visit_option expression e b)) by (destruct e; [apply KeepE; exact Ho|exact Ho]).
      apply explains_trans with (visit_option expression e b).
      + destruct e; [apply expression_keeps|apply grows_refl].
      + eapply explains_weaken; [apply (OptE e sh b He Ho)|]. intros n (e' & -> & Hn). apply u_echo. exact Hn.
      + eapply explains_weaken; [apply (OptE m sh _ Hm Ho1)|]. intros n (e' & -> & Hn). apply u_echo_message. exact Hn.
    - intros m sh b Ho c i Hin. destruct (referenced_only sh _ _ _ _ Ho Hin) as [X|(Hc & Hd & Hn)]; [left; exact X|right].
      split; [exact Hc|]. exists m. split; [exact Hd|constructor; exact Hn].
    - intros f es Hf Hes sh b Ho. cbn [expression]. apply explains_trans with (expression f b); [apply expression_keeps| |].
      + eapply explains_weaken; [apply Hf; exact Ho|apply u_callee].
      + eapply explains_weaken; [apply (ListE es sh _ Hes (KeepE f sh b Ho))|].
        intros n (e & Hin & He). apply u_argument with e; assumption.
    - intros es Hes sh b Ho. eapply explains_weaken; [apply (ListE es sh _ Hes Ho)|].
      intros n (e & Hin & He). apply u_pipeline with e; assumption.
    - intros es Hes sh b Ho. eapply explains_weaken; [apply (ListE es sh _ Hes Ho)|].
      intros n (e & Hin & He). apply u_tuple with e; assumption.
    - intros ss Hss sh b Ho. eapply explains_weaken; [apply (statements_only ss sh b Hss Ho)|]. apply u_block.
    - intros l r Hl Hr sh b Ho. cbn [expression]. apply explains_trans with (expression l b); [apply expression_keeps| |].
      + eapply explains_weaken; [apply Hl; exact Ho|apply u_left].
      + eapply explains_weaken; [apply Hr; apply KeepE; exact Ho|apply u_right].
    - intros es t Hes Ht sh b Ho. cbn [expression]. apply explains_trans with (visit_all expression es b); [apply expressions_keep| |].
      + eapply explains_weaken; [apply (ListE es sh _ Hes Ho)|].
        intros n (e & Hin & He). apply u_list with e; assumption.
      + eapply explains_weaken; [apply (OptE t sh _ Ht (KeepEs es sh b Ho))|].
        intros n (e & -> & He). apply u_tail. exact He.
    - intros e He sh b Ho. eapply explains_weaken; [apply He; exact Ho|apply u_unary].
    - intros segs H sh b Ho.
      apply explains_weaken with (fun n => exists seg, In seg segs /\
        (uses Possible sh (fst seg) n \/ exists o, In o (snd seg) /\ uses Possible sh o n)).
      + apply (explains_in (fun seg b => visit_all expression (snd seg) (expression (fst seg) b)) sh segs b
          (fun seg n => uses Possible sh (fst seg) n \/ exists o, In o (snd seg) /\ uses Possible sh o n)).
        * intros [e os] b1. apply keeps_trans with (expression e b1); [apply expression_keeps|apply expressions_keep].
        * exact Ho.
        * apply (Forall_imp _ _ _ H). intros [e os] [He Hos] b1 Hob. cbn [fst snd] in *.
          apply explains_trans with (expression e b1); [apply expression_keeps| |].
          -- eapply explains_weaken; [apply He; exact Hob|]. intros n Hn. left. exact Hn.
          -- eapply explains_weaken; [apply (ListE os sh _ Hos (KeepE e sh b1 Hob))|]. intros n Hn. right. exact Hn.
      + intros n ([e os] & Hin & [Hn|(o & Hino & Hn)]); cbn [fst snd] in *.
        * apply u_segment with e os; assumption.
        * apply u_option with e os o; assumption.
    - intros f es Hf Hes sh b Ho. cbn [expression]. apply explains_trans with (expression f b); [apply expression_keeps| |].
      + eapply explains_weaken; [apply Hf; exact Ho|apply u_base].
      + eapply explains_weaken; [apply (ListE es sh _ Hes (KeepE f sh b Ho))|].
        intros n (e & Hin & He). apply u_update with e; assumption.
    - intros args ss Hss sh b Ho. apply (explains_trans b (visit_all define_option args b)); [apply args_grow| |].
      + apply explains_same. clear. revert b. induction args as [|[a|] args IH]; intros b; [reflexivity| |]; cbn.
        * exact (IH (define a b)).
        * exact (IH b).
      + eapply explains_weaken; [apply (statements_only ss (also sh (fun a => In (Some a) args)) (visit_all define_option args b) Hss)|].
        * apply (only_hides sh _ b); [exact Ho|apply args_hide].
        * apply u_fn.
    - intros es cs Hes Hcs sh b Ho. cbn [expression].
      assert (H1 : explains b (visit_all expression es b) (uses Possible sh (ECase es cs))).
      { eapply explains_weaken; [apply (ListE es sh _ Hes Ho)|].
        intros n (e & Hin & He). apply u_subject with e; assumption. }
      destruct cs as [cs|]; [|exact H1].
      apply explains_trans with (visit_all expression es b); [apply expressions_keep|exact H1|].
      apply explains_weaken with (fun n => exists c, In c cs /\ clause_uses Possible sh c n).
      + apply (explains_in visit_clause sh cs _ (clause_uses Possible sh)); [apply clause_keeps|apply KeepEs; exact Ho|].
        apply (Forall_imp _ _ _ Hcs). intros c Hc b1. apply Hc.
      + intros n (c & Hin & Hc). apply u_clause with c; assumption.
    - intros e He sh b Ho. eapply explains_weaken; [apply He; exact Ho|apply stu_expression].
    - intros p v m Hv Hm sh b Ho. cbn [visit_statement].
      apply explains_trans with (expression v b); [apply expression_keeps| |].
      { eapply explains_weaken; [apply Hv; exact Ho|apply stu_value]. }
      apply explains_trans with (visit_pattern p (expression v b)); [apply pattern_grows| |].
      { eapply explains_weaken; [apply (pattern_only p sh nothing); apply KeepE; exact Ho|apply stu_pattern]. }
      eapply explains_weaken; [apply (OptE m sh _ Hm)|].
      + apply (only_more sh _ _ _ (KeepE v sh b Ho) (pattern_hides p _)).
      + intros n (e & -> & He). apply stu_message; [exact He|discriminate].
    - intros e ps He sh b Ho. cbn [visit_statement].
      apply explains_trans with (expression e b); [apply expression_keeps| |].
      { eapply explains_weaken; [apply He; exact Ho|apply stu_call]. }
      apply explains_all; [intros; apply pattern_grows|]. intros l1 a l2 ->.
      eapply explains_weaken; [apply (pattern_only a (also sh (use_scope Possible l1 (a :: l2))) nothing)|apply stu_use].
      apply (only_weaken (also sh (some_binds Possible l1))).
      + apply (only_hides sh _ (expression e b)); [apply KeepE; exact Ho|apply patterns_hide].
      + intros n [Hn|[Hn|[Hn _]]]; [left; exact Hn|right; exact Hn|contradiction].
    - intros v m Hv Hm sh b Ho. cbn [visit_statement].
      apply explains_trans with (expression v b); [apply expression_keeps| |].
      { eapply explains_weaken; [apply Hv; exact Ho|apply stu_assert]. }
      eapply explains_weaken; [apply (OptE m sh _ Hm (KeepE v sh b Ho))|].
      intros n (e & -> & He). apply stu_assert_message. exact He.
    - intros ps alts g e He sh b Ho. cbn [visit_clause].
      apply (explains_trans b (visit_all visit_pattern ps b)); [apply patterns_grow| |].
      { eapply explains_weaken; [apply (patterns_only ps sh b Ho)|apply clu_pattern]. }
      assert (Ho1 : only (also sh (some_binds Possible ps)) (visit_all visit_pattern ps b)).
      { apply (only_hides sh _ b); [exact Ho|apply patterns_hide]. }
      assert (N1 : names (visit_option visit_guard g (visit_all visit_pattern ps b)) = names (visit_all visit_pattern ps b)).
      { destruct g; [apply guard_names|reflexivity]. }
      apply (explains_trans _ (visit_option visit_guard g (visit_all visit_pattern ps b))).
      + destruct g; [apply guard_grows|apply grows_refl].
      + destruct g as [g|]; cbn [visit_option]; [|apply explains_refl].
        eapply explains_weaken; [apply guard_only; exact Ho1|apply clu_guard].
      + eapply explains_weaken; [apply (He (also sh (some_binds Possible ps)) (visit_option visit_guard g (visit_all visit_pattern ps b)))|apply clu_then].
        apply (only_same _ (visit_all visit_pattern ps b)); assumption.
  Qed.
End Definitions.
