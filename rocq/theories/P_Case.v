(** Properties C19, C20 and C22: compiling [case] expressions. *)
From Coq Require Import String ZArith NArith Bool List Lia Permutation.
From Verif Require Import Text Strings StringsSpec Bits BitsSpec Case CaseSpec.
From Verif Require Import CaseText CasePure CaseSem CaseStatic CaseSource CaseTop.
Import ListNotations.
Local Open Scope nat_scope.

(** ** C19: the first clause that accepts the values runs *)

(** For the [case]s of CaseSpec's [simple_case]; the full claim, for all well typed ones, is
    refuted below.  Values that nothing accepts fall through. *)
Theorem C19_first_matching_clause_runs_partial :
  forall env outside float_is finite float_value guards,
  (forall c l m, Permutation l m -> guards c l = guards c m) ->
  forall subjects cls, well_typed env subjects cls -> simple_case outside cls -> rows cls <> [] ->
  exists d x, compile_case env subjects cls = Done (d, x) /\
    forall values, Forall2 (has_type env) values subjects ->
      (forall r bs, selects outside float_is finite guards cls values r bs ->
         exists bs', Permutation bs bs' /\
           run outside float_is finite float_value guards d (subjects_store values) = Some (row_clause r, bs')) /\
      ((forall r bs, In r (rows cls) -> ~ accepts outside float_is finite guards r values bs) ->
         run outside float_is finite float_value guards d (subjects_store values) = None).
Proof.
  intros env outside float_is finite float_value guards GP subjects cls WT SI NE.
  destruct (compile_case_correct env outside float_is finite float_value guards GP subjects cls WT SI NE) as (d & x & E & H).
  exists d, x. split; [assumption|]. intros values TV. destruct (H values TV) as [H1 H2]. split.
  - intros r bs S. destruct (H1 r bs S) as (_ & bs' & R & P). eauto.
  - intros N. now apply H2.
Qed.
Print Assumptions C19_first_matching_clause_runs_partial.

(** ** C20: exhaustiveness *)

Lemma rows_decide env outside float_is finite guards subjects values rs :
  Forall (row_ok env outside subjects) rs -> Forall2 (has_type env) values subjects ->
  (exists before r after bs, rs = before ++ r :: after /\ accepts outside float_is finite guards r values bs /\
     (forall r' bs', In r' before -> ~ accepts outside float_is finite guards r' values bs')) \/
  (forall r bs, In r rs -> ~ accepts outside float_is finite guards r values bs).
Proof.
  intros OK TV. induction OK as [|r rs O OK IH]; [right; intros r bs []|].
  pose proof (fun l => row_selected env outside float_is finite (fun _ => VOther 0) guards subjects r values l O TV) as RS.
  destruct (selected outside float_is finite (fun _ => VOther 0) guards (tbranch (subject_variables_from 0 subjects) r) (subjects_store values)) as [l|].
  - left. exists [], r, rs, l. split; [reflexivity|]. split; [now apply RS|intros r' bs' []].
  - destruct IH as [(before & r' & after & bs & -> & A & N)|N].
    + left. exists (r :: before), r', after, bs. split; [reflexivity|]. split; [assumption|].
      intros r'' bs'' [<-|I] A'; [|now apply (N r'' bs'')]. apply RS in A'. discriminate.
    + right. intros r' bs [<-|I] A; [|now apply (N r' bs)]. apply RS in A. discriminate.
Qed.

Lemma rows_ok env outside subjects cls : well_typed env subjects cls -> simple_case outside cls ->
  Forall (row_ok env outside subjects) (rows cls).
Proof. intros WT SI. apply Forall_forall. intros r I. split; [now apply WT|now apply SI]. Qed.

(** If no pattern is reported missing, every value is matched by a clause without guard. *)
Theorem C20_accepted_is_exhaustive_partial :
  forall env outside float_is finite subjects cls d x,
  well_typed env subjects cls -> simple_case outside cls -> rows cls <> [] ->
  compile_case env subjects cls = Done (d, x) -> missing x = false ->
  forall values, Forall2 (has_type env) values subjects ->
  exists r bs, In r (rows cls) /\ row_guard r = None /\ patterns_match outside float_is finite (row_patterns r) values bs.
Proof.
  intros env outside float_is finite subjects cls d x WT SI NE E M values TV. set (guards := fun (_ : nat) (_ : list (text * val)) => false).
  destruct (compile_case_correct env outside float_is finite (fun _ => VOther 0) guards (fun _ _ _ _ => eq_refl) subjects cls WT SI NE) as (d' & x' & E' & H).
  rewrite E in E'. injection E' as <- <-. destruct (H values TV) as [_ H2].
  destruct (rows_decide env outside float_is finite guards subjects values (rows cls) (rows_ok env outside subjects cls WT SI) TV) as [(before & r & after & bs & EQ & [MP G] & _)|N].
  - exists r, bs. rewrite EQ. split; [apply in_elt|]. split; [|assumption]. destruct (row_guard r) as [g|]; [|reflexivity]. discriminate G. discriminate.
  - destruct (H2 N) as [_ MT]. congruence.
Qed.
Print Assumptions C20_accepted_is_exhaustive_partial.

(** So such a [case] does not fall through, whatever the guards say. *)
Theorem C20_accepted_never_falls_through_partial :
  forall env outside float_is finite float_value guards,
  (forall c l m, Permutation l m -> guards c l = guards c m) ->
  forall subjects cls d x, well_typed env subjects cls -> simple_case outside cls -> rows cls <> [] ->
  compile_case env subjects cls = Done (d, x) -> missing x = false ->
  forall values, Forall2 (has_type env) values subjects ->
  run outside float_is finite float_value guards d (subjects_store values) <> None.
Proof.
  intros env outside float_is finite float_value guards GP subjects cls d x WT SI NE E M values TV.
  destruct (compile_case_correct env outside float_is finite float_value guards GP subjects cls WT SI NE) as (d' & x' & E' & H).
  rewrite E in E'. injection E' as <- <-. destruct (H values TV) as [H1 H2].
  destruct (rows_decide env outside float_is finite guards subjects values (rows cls) (rows_ok env outside subjects cls WT SI) TV) as [(before & r & after & bs & EQ & A & N)|N].
  - destruct (H1 r bs) as (_ & bs' & -> & _); [now exists before, after|discriminate].
  - destruct (H2 N) as [_ MT]. congruence.
Qed.
Print Assumptions C20_accepted_never_falls_through_partial.

(** ** C22: unreachable clauses *)
Theorem C22_unreachable_never_runs_partial :
  forall env outside float_is finite guards,
  (forall c l m, Permutation l m -> guards c l = guards c m) ->
  forall subjects cls d x, well_typed env subjects cls -> simple_case outside cls -> rows cls <> [] ->
  compile_case env subjects cls = Done (d, x) ->
  forall r, is_reachable x (row_clause r) (row_alternative r) <> Reachable ->
  forall values bs, Forall2 (has_type env) values subjects -> ~ selects outside float_is finite guards cls values r bs.
Proof.
  intros env outside float_is finite guards GP subjects cls d x WT SI NE E r U values bs TV S.
  destruct (compile_case_correct env outside float_is finite (fun _ => VOther 0) guards GP subjects cls WT SI NE) as (d' & x' & E' & H).
  rewrite E in E'. injection E' as <- <-. destruct (H values TV) as [H1 _]. destruct (H1 r bs S) as [I _]. apply U.
  unfold is_reachable. replace (existsb (pair_eqb (row_clause r, row_alternative r)) (reachable x)) with true; [reflexivity|].
  symmetry. apply existsb_exists. eexists. split; [exact I|]. unfold pair_eqb. cbn. now rewrite !Nat.eqb_refl.
Qed.
Print Assumptions C22_unreachable_never_runs_partial.

(** ** Examples *)

(** To compute which row is chosen. *)
Definition no_outside : text -> Z := fun _ => 0%Z.
Definition no_float_is : text -> endianness -> list bool -> bool := fun _ _ _ => false.
Definition all_finite : endianness -> list bool -> bool := fun _ _ => true.
Definition no_float : text -> val := fun _ => VOther 0.

Fixpoint first_row (guards : nat -> list (text * val) -> bool) (rs : list row) (values : list val) : option (row * list (text * val)) :=
  match rs with
  | [] => None
  | r :: rs =>
      match tmatches no_outside no_float_is all_finite (map tree_of (row_patterns r)) values with
      | Some l =>
          if match row_guard r with None => true | Some _ => guards (row_clause r) l end
          then Some (r, l) else first_row guards rs values
      | None => first_row guards rs values
      end
  end.
Lemma first_row_selects env guards subjects cls values r l : well_typed env subjects cls ->
  Forall2 (has_type env) values subjects -> first_row guards (rows cls) values = Some (r, l) ->
  selects no_outside no_float_is all_finite guards cls values r l.
Proof.
  unfold well_typed, selects. intros WT TV. induction (rows cls) as [|r' rs IH]; cbn; [discriminate|].
  pose proof (fun l => patterns_spec env no_outside no_float_is all_finite subjects (row_patterns r') values l (WT r' (or_introl eq_refl)) TV) as PS.
  assert (first_row guards rs values = Some (r, l) -> (forall l', ~ accepts no_outside no_float_is all_finite guards r' values l') ->
    exists before after, r' :: rs = before ++ r :: after /\ accepts no_outside no_float_is all_finite guards r values l /\
      (forall r'' bs', In r'' before -> ~ accepts no_outside no_float_is all_finite guards r'' values bs')) as K.
  { intros F N. destruct IH as (before & after & -> & A & N'); [intros r'' I; apply WT; now right|assumption|].
    exists (r' :: before), after. split; [reflexivity|]. split; [assumption|]. intros r'' bs' [<-|I]; [apply N|now apply N']. }
  destruct (tmatches no_outside no_float_is all_finite (map tree_of (row_patterns r')) values) as [m|].
  2:{ intros F. apply K; [assumption|]. intros l' [A _]. apply PS in A. discriminate. }
  destruct (row_guard r') as [g|] eqn:G.
  - destruct (guards (row_clause r') m) eqn:GM.
    + intros [= <- <-]. exists [], rs. split; [reflexivity|]. split; [|intros ? ? []]. split; [now apply PS|now intros _].
    + intros F. apply K; [assumption|]. intros l' [A AG]. apply PS in A. injection A as ->. rewrite AG in GM; [discriminate|]. congruence.
  - intros [= <- <-]. exists [], rs. split; [reflexivity|]. split; [|intros ? ? []]. split; [now apply PS|congruence].
Qed.

Lemma plain_literal s : ~ In 92%N s -> literal s s.
Proof.
  induction s as [|c s IH]; intros N; [constructor|]. change (c :: s) with ([c] ++ s) at 1. constructor.
  - constructor. intros ->. apply N. now left.
  - apply IH. intros I. apply N. now right.
Qed.
Ltac plain := let PL := fresh in apply plain_literal; intros PL; cbn in PL; repeat match goal with H : _ \/ _ |- _ => destruct H as [H|H]; [discriminate|] end; contradiction.
Ltac segments := cbn; unfold valid_segment; cbn; repeat split; try lia; try discriminate; intros;
  repeat match goal with H : PAssign _ _ = PAssign _ _ |- _ => injection H as; subst; reflexivity end; try discriminate.
Ltac typed := repeat first
  [ apply Forall2_nil | apply Forall2_cons | apply Forall_nil | apply Forall_cons
  | apply type_discard | apply type_variable | apply type_assign | apply type_int
  | eapply type_string; plain | eapply type_prefix; plain | apply type_bit_array; segments
  | apply type_tuple | apply type_list | apply type_list_discard | apply type_list_variable
  | eapply type_constructor; [vm_compute; reflexivity|left; reflexivity|reflexivity|discriminate|cbn] ].
Ltac rows_typed := unfold well_typed; cbn; intros r I;
  repeat match goal with H : _ \/ _ |- _ => destruct H as [H|H]; [subst r; cbn; typed|] end; contradiction.
Ltac valued := repeat first
  [ apply Forall2_nil | apply Forall2_cons | apply Forall_nil | apply Forall_cons
  | apply has_int | apply has_string | apply has_bits | apply has_tuple | apply has_list
  | eapply has_variant; [vm_compute; reflexivity|reflexivity|discriminate|cbn] ].

(** A later row without prefixes is compatible with every row. *)
Inductive without_prefix : source -> Prop :=
  | without_discard : without_prefix TPDiscard
  | without_variable n : without_prefix (TPVariable n)
  | without_int z : without_prefix (TPInt z)
  | without_string s : without_prefix (TPString s)
  | without_bits segs : without_prefix (TPBitArray segs)
  | without_assign n p : without_prefix p -> without_prefix (TPAssign n p)
  | without_tuple ps : Forall without_prefix ps -> without_prefix (TPTuple ps)
  | without_list ps t : Forall without_prefix ps -> without_prefix (TPList ps t)
  | without_constructor i u n m ps : Forall without_prefix ps -> without_prefix (TPConstructor i u n m ps).
Lemma without_meets p q sibs p' q' : meets p q sibs p' q' -> without_prefix q -> without_prefix q'.
Proof.
  assert (forall qs1 q qs2, Forall without_prefix (qs1 ++ q :: qs2) -> without_prefix q) as K
    by (intros qs1 q0 qs2 F; rewrite Forall_forall in F; apply F, in_elt).
  induction 1; intros W; auto; inversion W; subst; eauto.
Qed.
Lemma without_compatible r r' : Forall without_prefix (row_patterns r') -> compatible r r'.
Proof.
  intros F before p after before' q after' sibs p' q' _ E' _ M. rewrite E' in F. rewrite Forall_forall in F.
  assert (without_prefix q') as W by (apply (without_meets _ _ _ _ _ M), F, in_elt).
  split; intros C; destruct C; inversion W.
Qed.
Lemma no_clash_tail cls r rs : rows cls = r :: rs -> Forall (fun r => Forall without_prefix (row_patterns r)) rs -> no_clash cls.
Proof.
  intros E F l1 r1 l2 r2 l3 E'. apply without_compatible. rewrite Forall_forall in F. apply F.
  rewrite E in E'. destruct l1 as [|r0 l1]; injection E' as _ ->; [apply in_elt|]. apply in_or_app. right. right. apply in_elt.
Qed.

(** The types [Bool] and [W { C1(String) C2 }]. *)
Definition example_env : environment :=
  Environment (str "m") (fun _ n =>
    if text_eqb n (str "Bool") then Some (TypeVariants false [] [Constructor (str "True") []; Constructor (str "False") []])
    else if text_eqb n (str "W") then Some (TypeVariants false [] [Constructor (str "C1") [(None, CString)]; Constructor (str "C2") []])
    else None).
Definition w_type := CNamed (str "m") (str "W") [] None.
Definition bool_type := CNamed (str "gleam") (str "Bool") [] None.
Definition c1 (p : source) := TPConstructor 0 (str "C1") (str "C1") None [p].
Definition c2 := TPConstructor 1 (str "C2") (str "C2") None [].
Definition true_ := TPConstructor 0 (str "True") (str "True") None [].
Definition false_ := TPConstructor 1 (str "False") (str "False") None [].
Definition prefix (s : string) := TPStringPrefix (str s) None None.
Definition byte (z : Z) := Segment (PInt z) [] TInt.
Definition plain_clause (ps : list source) := Clause [ps] None.

(** [case x, y {
      #("wib" <> rest, [C1(_), ..]), _ if rest == "" -> 0
      #(_, [C1("abc") as c, _, ..tl]), <<n, more:bits>> | #(_, [C2 as c, ..tl]), <<_, n, more:bits>> -> 1
      _, <<0>> -> 2
    }] *)
Definition example_clauses : list clause :=
  [ Clause [[TPTuple [TPStringPrefix (str "wib") None (Some (str "rest")); TPList [c1 TPDiscard] (Some TPDiscard)]; TPDiscard]] (Some [str "rest"]);
    Clause [[TPTuple [TPDiscard; TPList [TPAssign (str "c") (c1 (TPString (str "abc"))); TPDiscard] (Some (TPVariable (str "tl")))];
             TPBitArray [Segment (PVariable (str "n")) [] TInt; Segment (PVariable (str "more")) [OBits] TBitArray]];
            [TPTuple [TPDiscard; TPList [TPAssign (str "c") c2] (Some (TPVariable (str "tl")))];
             TPBitArray [Segment (PDiscard (str "_")) [] TInt; Segment (PVariable (str "n")) [] TInt; Segment (PVariable (str "more")) [OBits] TBitArray]]] None;
    plain_clause [TPDiscard; TPBitArray [byte 0]] ].
Definition example_subjects := [CTuple [CString; CList w_type]; CBitArray].
(** The guard of the example, and one that never holds. *)
Definition is_empty_text (v : text * val) : bool := match snd v with VString [] => true | _ => false end.
Definition example_guards (_ : nat) (l : list (text * val)) : bool := forallb is_empty_text l.
Definition never (_ : nat) (_ : list (text * val)) : bool := false.
Lemma example_guards_permutation c l m : Permutation l m -> example_guards c l = example_guards c m.
Proof.
  unfold example_guards. intros P. induction P; cbn; try congruence. now rewrite !andb_assoc, (andb_comm (is_empty_text y)).
Qed.

Lemma example_well_typed : well_typed example_env example_subjects example_clauses.
Proof. rows_typed. Qed.
Lemma plain_tidy s : forallb (fun c => text_eqb (tidy_piece c) [c]) s = true -> tidy s.
Proof.
  intros F. exists s. rewrite forallb_forall in F. induction s as [|c s IH]; [reflexivity|]. cbn [flat_map].
  rewrite <- IH by (intros x I; apply F; now right). specialize (F c (or_introl eq_refl)). apply text_eqb_iff in F. now rewrite F.
Qed.
Ltac simply := repeat first
  [ apply Forall_nil | apply Forall_cons | apply simple_discard | apply simple_variable | apply simple_assign
  | apply simple_int | apply simple_tuple | apply simple_list | apply simple_constructor
  | apply simple_string, plain_tidy; reflexivity | apply simple_prefix; [apply plain_tidy; reflexivity|reflexivity] ].
Lemma example_simple : simple_case no_outside example_clauses.
Proof.
  split.
  - cbn. intros r I. repeat match goal with H : _ \/ _ |- _ => destruct H as [H|H]; [subst r; cbn; simply|] end; try contradiction.
    all: apply simple_bit_array; [| | |try discriminate].
    all: try (repeat constructor; intros n p; discriminate).
    all: try (intros v r; cbn; repeat (let H := fresh in intros [H|H]; [try discriminate; injection H; intros; subst; reflexivity|revert H]); contradiction).
    all: try (intros t b; cbn; repeat (let H := fresh in intros [H|H]; [subst t; cbn; repeat split; lia|revert H]); contradiction).
  - eapply no_clash_tail; [reflexivity|]. repeat constructor.
Qed.

(** The value [#("wibble", [C1("abc"), C2]), <<7, 1>>]. *)
Definition example_values :=
  [VTuple [VString (str "wibble"); VList [VVariant 0 [VString (str "abc")]; VVariant 1 []]]; VBits (bytes_bits [7; 1]%N)].
Example C19_first_matching_clause_runs_example :
  well_typed example_env example_subjects example_clauses /\ simple_case no_outside example_clauses /\
  Forall2 (has_type example_env) example_values example_subjects /\
  (exists r bs, selects no_outside no_float_is all_finite example_guards example_clauses example_values r bs /\
     row_clause r = 1 /\ bs = [(str "c", VVariant 0 [VString (str "abc")]); (str "tl", VList []); (str "n", VInt 7); (str "more", VBits (bytes_bits [1]%N))]) /\
  (exists d x, compile_case example_env example_subjects example_clauses = Done (d, x) /\
     run no_outside no_float_is all_finite no_float example_guards d (subjects_store example_values) =
       Some (1, [(str "c", VVariant 0 [VString (str "abc")]); (str "tl", VList []); (str "n", VInt 7); (str "more", VBits (bytes_bits [1]%N))]) /\
     run no_outside no_float_is all_finite no_float example_guards d
       (subjects_store [VTuple [VString (str "wib"); VList [VVariant 0 [VString (str "abc")]; VVariant 1 []]]; VBits []]) =
       Some (0, [(str "rest", VString [])]) /\
     run no_outside no_float_is all_finite no_float example_guards d
       (subjects_store [VTuple [VString (str "wi"); VList [VVariant 1 []; VVariant 1 []]]; VBits (bytes_bits [0; 255]%N)]) =
       Some (1, [(str "c", VVariant 1 []); (str "tl", VList [VVariant 1 []]); (str "n", VInt 255); (str "more", VBits [])]) /\
     run no_outside no_float_is all_finite no_float example_guards d
       (subjects_store [VTuple [VString (str "wi"); VList [VVariant 1 []]]; VBits (bytes_bits [3]%N)]) = None).
Proof.
  split; [exact example_well_typed|]. split; [exact example_simple|]. split; [unfold example_values, example_subjects; valued|]. split.
  - do 2 eexists. split; [apply (first_row_selects example_env _ example_subjects); [exact example_well_typed|unfold example_values, example_subjects; valued|vm_compute; reflexivity]|].
    split; vm_compute; reflexivity.
  - destruct (compile_case example_env example_subjects example_clauses) as [[d x]| |] eqn:E; [|vm_compute in E; discriminate E..].
    exists d, x. split; [reflexivity|]. vm_compute in E. injection E as <- <-. repeat split; vm_compute; reflexivity.
Qed.

(** [case b, w { True, C1(_) -> 0  False, _ -> 1  _, C2 -> 2  False, C1("a") -> 3 }]: accepted, the
    last clause is unreachable; without the clause of [C2] it is rejected. *)
Definition variant_clauses :=
  [plain_clause [true_; c1 TPDiscard]; plain_clause [false_; TPDiscard]; plain_clause [TPDiscard; c2];
   plain_clause [false_; c1 (TPString (str "a"))]].
Lemma variant_well_typed : well_typed example_env [bool_type; w_type] variant_clauses.
Proof. rows_typed. Qed.
Lemma variant_simple : simple_case no_outside variant_clauses.
Proof.
  split.
  - cbn. intros r I. repeat match goal with H : _ \/ _ |- _ => destruct H as [H|H]; [subst r; cbn; simply|] end; contradiction.
  - eapply no_clash_tail; [reflexivity|]. repeat constructor.
Qed.
Example C20_accepted_is_exhaustive_example :
  well_typed example_env [bool_type; w_type] variant_clauses /\ simple_case no_outside variant_clauses /\
  (exists d x, compile_case example_env [bool_type; w_type] variant_clauses = Done (d, x) /\ missing x = false /\
     run no_outside no_float_is all_finite no_float never d (subjects_store [VVariant 0 []; VVariant 1 []]) = Some (2, [])) /\
  (exists d x, compile_case example_env [bool_type; w_type] (firstn 2 variant_clauses) = Done (d, x) /\ missing x = true /\
     run no_outside no_float_is all_finite no_float never d (subjects_store [VVariant 0 []; VVariant 1 []]) = None).
Proof.
  split; [exact variant_well_typed|]. split; [exact variant_simple|].
  split; do 2 eexists; (split; [vm_compute; reflexivity|]); split; vm_compute; reflexivity.
Qed.
Example C22_unreachable_never_runs_example :
  well_typed example_env [bool_type; w_type] variant_clauses /\ simple_case no_outside variant_clauses /\
  exists d x, compile_case example_env [bool_type; w_type] variant_clauses = Done (d, x) /\
    map (fun r => is_reachable x (row_clause r) (row_alternative r)) (rows variant_clauses) =
      [Reachable; Reachable; Reachable; DuplicatePattern].
Proof.
  split; [exact variant_well_typed|]. split; [exact variant_simple|]. do 2 eexists. split; vm_compute; reflexivity.
Qed.

(** ** Counterexamples

    A well typed [case] whose tree does not run the first clause that accepts the values, or
    not with its variables. *)
Definition wrong_tree env guards subjects cls values : Prop :=
  well_typed env subjects cls /\ Forall2 (has_type env) values subjects /\
  (forall c l m, Permutation l m -> guards c l = guards c m) /\
  exists r bs d x, selects no_outside no_float_is all_finite guards cls values r bs /\
    compile_case env subjects cls = Done (d, x) /\
    forall bs', run no_outside no_float_is all_finite no_float guards d (subjects_store values) = Some (row_clause r, bs') ->
      ~ Permutation bs bs'.
Lemma wrong_tree_intro env guards subjects cls values r bs d x : well_typed env subjects cls ->
  Forall2 (has_type env) values subjects -> (forall c l m, Permutation l m -> guards c l = guards c m) ->
  first_row guards (rows cls) values = Some (r, bs) -> compile_case env subjects cls = Done (d, x) ->
  match run no_outside no_float_is all_finite no_float guards d (subjects_store values) with
  | Some (c, bs') => c <> row_clause r \/ length bs' <> length bs
  | None => True
  end -> wrong_tree env guards subjects cls values.
Proof.
  intros WT TV GP FR E RUN. split; [assumption|]. split; [assumption|]. split; [assumption|]. exists r, bs, d, x.
  split; [now apply (first_row_selects env _ subjects)|]. split; [assumption|]. intros bs' R P. rewrite R in RUN.
  apply Permutation_length in P. destruct RUN as [N|N]; congruence.
Qed.
Ltac wrong := eapply wrong_tree_intro;
  [rows_typed|valued|reflexivity|vm_compute; reflexivity|vm_compute; reflexivity|vm_compute; first [left; discriminate|right; discriminate|exact I]].

(** A prefix below a longer one that fails elsewhere: [("wibble" <> _, 1)], [("wibble" <> _, 2)],
    [("wib" <> _, _)], [(_, _)] on [("wibbler", 3)]. *)
Theorem C19_refuted_by_nested_prefixes : exists cls values, wrong_tree example_env never [CString; CInt] cls values.
Proof.
  exists [plain_clause [prefix "wibble"; TPInt 1]; plain_clause [prefix "wibble"; TPInt 2]; plain_clause [prefix "wib"; TPDiscard]; plain_clause [TPDiscard; TPDiscard]],
    [VString (str "wibbler"); VInt 3]. wrong.
Qed.
Print Assumptions C19_refuted_by_nested_prefixes.

(** The name of a prefix inside another pattern is lost. *)
Theorem C19_refuted_by_prefix_names : exists cls values, wrong_tree example_env never [bool_type; w_type] cls values.
Proof.
  exists [plain_clause [true_; c1 (prefix "z")]; Clause [[false_; TPDiscard]] (Some []); Clause [[false_; TPDiscard]] (Some []);
          plain_clause [TPDiscard; c1 (TPStringPrefix (str "a") (Some (str "x")) None)]; plain_clause [TPDiscard; TPDiscard]],
    [VVariant 1 []; VVariant 0 [VString (str "ab")]]. wrong.
Qed.
Print Assumptions C19_refuted_by_prefix_names.

(** The alias of a segment is lost when the test of its literal is implied by another one:
    [<<1:16, 5>>], [<<0, 1 as y, _>>], [_] on [<<0, 1, 7>>]. *)
Theorem C19_refuted_by_segment_aliases : exists cls values, wrong_tree example_env never [CBitArray] cls values.
Proof.
  exists [plain_clause [TPBitArray [Segment (PInt 1) [OSize (SInt 16) true] TInt; byte 5]];
          plain_clause [TPBitArray [byte 0; Segment (PAssign (str "y") (PInt 1)) [] TInt; Segment (PDiscard (str "_")) [] TInt]];
          plain_clause [TPDiscard]], [VBits (bytes_bits [0; 1; 7]%N)]. wrong.
Qed.
Print Assumptions C19_refuted_by_segment_aliases.

(** Two spellings of the same string: ["\u{41}"] and ["A"]. *)
Theorem C19_refuted_by_escapes : exists cls values, wrong_tree example_env never [CString; CInt] cls values.
Proof.
  exists [plain_clause [TPString (str "\u{41}"); TPInt 1]; plain_clause [TPString (str "A"); TPDiscard]; plain_clause [TPDiscard; TPDiscard]],
    [VString (str "A"); VInt 2].
  eapply wrong_tree_intro; [|valued|reflexivity|vm_compute; reflexivity|vm_compute; reflexivity|vm_compute; left; discriminate].
  unfold well_typed; cbn; intros r [<-|[<-|[<-|[]]]]; cbn; typed. apply (type_string _ (str "\u{41}") (str "A")).
  apply (literal_piece (str "\u{41}") 65 [] []); [|constructor]. apply (escaped_code_point (str "41") 65).
  - apply (more_digits 52 4 (str "1") 1); [reflexivity|now constructor].
  - left. reflexivity.
Qed.
Print Assumptions C19_refuted_by_escapes.

(** After a segment that cannot match, the catch all is lost: [<<256>>], [_], [<<1>>], [_] on [<<2>>]. *)
Theorem C19_refuted_by_impossible_segments : exists cls values, wrong_tree example_env never [CBitArray] cls values.
Proof.
  exists [plain_clause [TPBitArray [byte 256]]; plain_clause [TPDiscard]; plain_clause [TPBitArray [byte 1]]; plain_clause [TPDiscard]],
    [VBits (bytes_bits [2]%N)]. wrong.
Qed.
Print Assumptions C19_refuted_by_impossible_segments.

(** A [case] that matches everything but is rejected: [case s { "" <> _ -> 0 }]. *)
Theorem C20_exhaustive_is_accepted_refuted :
  exists cls d x, well_typed example_env [CString] cls /\ simple_case no_outside cls /\
    compile_case example_env [CString] cls = Done (d, x) /\ missing x = true /\
    forall values, Forall2 (has_type example_env) values [CString] ->
    exists r bs, In r (rows cls) /\ row_guard r = None /\ patterns_match no_outside no_float_is all_finite (row_patterns r) values bs.
Proof.
  exists [plain_clause [prefix ""]]. do 2 eexists. split; [rows_typed|]. split.
  - split; [|eapply no_clash_tail; [reflexivity|constructor]]. cbn. intros r [<-|[]]. cbn. simply.
  - split; [vm_compute; reflexivity|]. split; [reflexivity|]. intros values T.
    inversion T as [|v t vs ts H N]; subst. inversion N; subst. inversion H; subst.
    do 2 eexists. split; [now left|]. split; [reflexivity|]. cbn.
    apply match_more with (bs := []) (bs' := []); [|constructor].
    apply (match_prefix no_outside no_float_is all_finite [] [] None None s). constructor.
Qed.
Print Assumptions C20_exhaustive_is_accepted_refuted.

(** And one that does match everything, is rejected, and falls through: [<<256>>], [_], [<<1>>]. *)
Theorem C20_refuted_by_impossible_segments :
  exists cls d x, well_typed example_env [CBitArray] cls /\ In (plain_clause [TPDiscard]) cls /\
    compile_case example_env [CBitArray] cls = Done (d, x) /\ missing x = true /\
    run no_outside no_float_is all_finite no_float never d (subjects_store [VBits (bytes_bits [2]%N)]) = None.
Proof.
  exists [plain_clause [TPBitArray [byte 256]]; plain_clause [TPDiscard]; plain_clause [TPBitArray [byte 1]]].
  do 2 eexists. split; [rows_typed|]. split; [cbn; tauto|]. split; [vm_compute; reflexivity|]. split; vm_compute; reflexivity.
Qed.
Print Assumptions C20_refuted_by_impossible_segments.
