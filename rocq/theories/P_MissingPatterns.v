(** C21 (and the converse of C20): the patterns that are suggested when a [case] does not match
    everything. *)
From Coq Require Import String ZArith NArith Bool List Lia.
From Verif Require Import Text Strings Bits Case CaseSpec CaseText MissingPatterns MissingPatternsSpec MissingPatternsTop P_Case.
Import ListNotations.
Local Open Scope nat_scope.
Local Open Scope list_scope.

(** ** C21 *)

(** There is a list of suggestions, without repetitions and empty exactly when the [case] is
    accepted; each can be read as patterns for the subjects; and every value that no clause
    matches for sure is described by one of them. *)
Theorem C21_unmatched_is_suggested_partial :
  forall env ns is_internal outside float_is finite subjects cls,
  well_typed env subjects cls -> simple_case outside cls -> rows cls <> [] ->
  exists d x texts, compile_case env subjects cls = Done (d, x) /\
    missing_patterns env ns is_internal subjects d = Done texts /\
    NoDup texts /\ (missing x = true <-> texts <> []) /\
    (forall t, In t texts -> exists ps, written_row env ns is_internal subjects ps t) /\
    forall values, Forall2 (has_type env) values subjects -> unmatched outside float_is finite cls values ->
      exists t ps bs, In t texts /\ written_row env ns is_internal subjects ps t /\
        patterns_match outside float_is finite ps values bs.
Proof. intros. now apply suggested_cover. Qed.
Print Assumptions C21_unmatched_is_suggested_partial.

(** When the clauses are made of constructors, tuples and lists, and no type is hidden, none of
    the values a suggestion describes is matched by a clause for sure. *)
Theorem C21_suggested_is_unmatched_partial :
  forall env ns is_internal outside float_is finite subjects cls,
  well_typed env subjects cls -> simple_case outside cls -> rows cls <> [] ->
  clauses_made_of false cls -> (forall m n, visible env is_internal m n) ->
  exists d x texts, compile_case env subjects cls = Done (d, x) /\
    missing_patterns env ns is_internal subjects d = Done texts /\
    forall t, In t texts -> exists ps, written_row env ns is_internal subjects ps t /\
      forall values bs, Forall2 (has_type env) values subjects ->
        patterns_match outside float_is finite ps values bs -> unmatched outside float_is finite cls values.
Proof. intros. now apply suggested_all. Qed.
Print Assumptions C21_suggested_is_unmatched_partial.

(** With literals too, and whichever types are hidden, each suggestion describes some value that
    no clause matches for sure, when all the types have values. *)
Theorem C21_suggested_has_unmatched_partial :
  forall env ns is_internal outside float_is finite subjects cls,
  well_typed env subjects cls -> simple_case outside cls -> rows cls <> [] ->
  clauses_made_of true cls -> Forall (furnished env) subjects ->
  exists d x texts, compile_case env subjects cls = Done (d, x) /\
    missing_patterns env ns is_internal subjects d = Done texts /\
    forall t, In t texts -> exists ps values bs, written_row env ns is_internal subjects ps t /\
      Forall2 (has_type env) values subjects /\ patterns_match outside float_is finite ps values bs /\
      unmatched outside float_is finite cls values.
Proof.
  intros. destruct (suggested_some env ns is_internal outside float_is finite subjects cls) as (d & x & texts & A & B & _ & C); auto.
  exists d, x, texts. auto.
Qed.
Print Assumptions C21_suggested_has_unmatched_partial.

(** ** C20: the converse *)

(** When the clauses have no string prefixes and no bit arrays and all the types have values, a
    [case] is accepted if and only if every value is matched by a clause without guard. *)
Theorem C20_accepted_iff_exhaustive_partial :
  forall env outside float_is finite subjects cls d x,
  well_typed env subjects cls -> simple_case outside cls -> rows cls <> [] ->
  clauses_made_of true cls -> Forall (furnished env) subjects ->
  compile_case env subjects cls = Done (d, x) ->
  (missing x = false <->
   forall values, Forall2 (has_type env) values subjects ->
   exists r bs, In r (rows cls) /\ row_guard r = None /\ patterns_match outside float_is finite (row_patterns r) values bs).
Proof.
  intros env outside float_is finite subjects cls d x WT SI NE MO FU CC. split.
  - intros M values TV. eapply C20_accepted_is_exhaustive_partial; eassumption.
  - intros EX. destruct (missing x) eqn:M; [|reflexivity].
    destruct (suggested_some env (Names [] []) (fun _ _ => false) outside float_is finite subjects cls WT SI NE MO FU) as (d' & x' & texts & CC' & _ & NT & H).
    rewrite CC in CC'. injection CC' as <- <-. destruct texts as [|t texts]; [now contradiction (NT M)|].
    destruct (H t (or_introl eq_refl)) as (ps & values & bs & _ & TV & _ & U). destruct (EX values TV) as (r & bs' & I & G & MP).
    contradiction (U r bs' I G MP).
Qed.
Print Assumptions C20_accepted_iff_exhaustive_partial.

(** ** Examples *)

(** [type Pet { Cat(name: String, lives: Int) Dog(String, friend: Pet) }] of the module [zoo/pet],
    and [Bool]. *)
Definition pet_env : environment :=
  Environment (str "main") (fun _ n =>
    if text_eqb n (str "Bool") then Some (TypeVariants false [] [Constructor (str "True") []; Constructor (str "False") []])
    else if text_eqb n (str "Pet") then Some (TypeVariants false []
      [Constructor (str "Cat") [(Some (str "name"), CString); (Some (str "lives"), CInt)];
       Constructor (str "Dog") [(None, CString); (Some (str "friend"), CNamed (str "zoo/pet") (str "Pet") [] None)]])
    else None).
Definition pet := CNamed (str "zoo/pet") (str "Pet") [] None.
Definition cat (a b : source) := TPConstructor 0 (str "Cat") (str "Cat") None [a; b].
Definition dog (a b : source) := TPConstructor 1 (str "Dog") (str "Dog") None [a; b].
(** [Bool]'s constructors have their names, [zoo/pet] is not imported, or imported as [p], or its
    [Dog] is imported as [Hound]. *)
Definition bool_names := [((str "gleam", str "True"), str "True"); ((str "gleam", str "False"), str "False")].
Definition no_import := Names bool_names [].
Definition pet_import := Names bool_names [(str "zoo/pet", str "p")].
Definition dog_import := Names (((str "zoo/pet", str "Dog"), str "Hound") :: bool_names) [(str "zoo/pet", str "p")].
Definition nothing_internal (_ _ : text) := false.
Definition pet_internal (m n : text) := text_eqb m (str "zoo/pet").

(** [case pets, flag { [], _ -> 0  [Cat(_, _)], True -> 1  [Dog(_, Cat(_, _)), ..], _ -> 2  _, False if x -> 3 }] *)
Definition pet_subjects := [CList pet; bool_type].
Definition pet_clauses :=
  [ plain_clause [TPList [] None; TPDiscard];
    plain_clause [TPList [cat TPDiscard TPDiscard] None; true_];
    plain_clause [TPList [dog TPDiscard (cat TPDiscard TPDiscard)] (Some TPDiscard); TPDiscard];
    Clause [[TPDiscard; false_]] (Some [str "x"]) ].
Ltac simple_rows := split; [cbn; intros r I;
  repeat match goal with H : _ \/ _ |- _ => destruct H as [H|H]; [subst r; cbn; simply|] end; contradiction
  |eapply no_clash_tail; [reflexivity|repeat constructor]].
Lemma pet_well_typed : well_typed pet_env pet_subjects pet_clauses.
Proof. rows_typed. Qed.
Lemma pet_simple : simple_case no_outside pet_clauses.
Proof. simple_rows. Qed.

Definition suggestions env ns is_internal subjects cls : out (list text) :=
  match compile_case env subjects cls with
  | Done (d, _) => missing_patterns env ns is_internal subjects d
  | _ => Panic
  end.
Example C21_unmatched_is_suggested_example :
  well_typed pet_env pet_subjects pet_clauses /\ simple_case no_outside pet_clauses /\
  suggestions pet_env dog_import nothing_internal pet_subjects pet_clauses = Done
    [str "[p.Cat(name:, lives:), _, ..], True";
     str "[Hound(_, friend: Hound(_, friend:)), ..], True";
     str "[Hound(_, friend: Hound(_, friend:)), ..], False";
     str "[p.Cat(name:, lives:), ..], False"] /\
  suggestions pet_env no_import nothing_internal pet_subjects pet_clauses = Done
    [str "[pet.Cat(name:, lives:), _, ..], True";
     str "[pet.Dog(_, friend: pet.Dog(_, friend:)), ..], True";
     str "[pet.Dog(_, friend: pet.Dog(_, friend:)), ..], False";
     str "[pet.Cat(name:, lives:), ..], False"] /\
  suggestions pet_env dog_import nothing_internal pet_subjects (plain_clause [TPDiscard; TPDiscard] :: pet_clauses) = Done [].
Proof. split; [exact pet_well_typed|]. split; [exact pet_simple|]. repeat split; vm_compute; reflexivity. Qed.

Ltac made := repeat first
  [ apply Forall_nil | apply Forall_cons | apply made_discard | apply made_variable | apply made_assign
  | apply made_int; reflexivity | apply made_string; reflexivity | apply made_tuple | apply made_list | apply made_list_tail | apply made_constructor ].
Ltac rows_made := unfold clauses_made_of; cbn; intros r I;
  repeat match goal with H : _ \/ _ |- _ => destruct H as [H|H]; [subst r; cbn; made|] end; contradiction.
(** Not so when the constructors of a type may not be shown. *)
Example C21_suggested_is_unmatched_example :
  clauses_made_of false pet_clauses /\ (forall m n, visible pet_env nothing_internal m n) /\
  suggestions pet_env dog_import pet_internal pet_subjects pet_clauses = Done
    [str "[_, _, ..], True"; str "[_, ..], True"; str "[_, ..], False"] /\
  exists bs, patterns_match no_outside no_float_is all_finite [TPList [TPDiscard] (Some TPDiscard); true_]
    [VList [VVariant 0 [VString (str "Tom"); VInt 9]]; VVariant 0 []] bs.
Proof.
  split; [rows_made|]. split; [now left|]. split; [vm_compute; reflexivity|].
  eexists. eapply match_more; [eapply (match_list_tail _ _ _ _ _ [_]); [eapply match_more; [constructor|constructor]|constructor]|].
  eapply match_more; [|constructor]. eapply match_constructor. constructor.
Qed.

(** [case n, pet { 1, _ -> 0  _, Dog("Rex", _) -> 1  2, Cat(_, 9) -> 2 }] *)
Definition literal_subjects := [CInt; pet].
Definition literal_clauses :=
  [ plain_clause [TPInt 1; TPDiscard]; plain_clause [TPDiscard; dog (TPString (str "Rex")) TPDiscard];
    plain_clause [TPInt 2; cat TPDiscard (TPInt 9)] ].
Lemma pet_furnished : Forall (furnished pet_env) literal_subjects.
Proof.
  assert (forall t u, component pet_env t u -> In t [CInt; CString; pet] -> In u [CInt; CString; pet]) as C.
  { induction 1 as [t|t u C IH|ts t u I C IH|m n args inferred tv k t u G K I C IH]; intros J; cbn in J.
    - exact J.
    - destruct J as [J|[J|[J|[]]]]; discriminate J.
    - destruct J as [J|[J|[J|[]]]]; discriminate J.
    - destruct J as [J|[J|[J|[]]]]; try discriminate J. injection J as <- <- <- <-. vm_compute in G. injection G as <-.
      apply IH. cbn in K. destruct K as [<-|[<-|[]]]; cbn in I; repeat (destruct I as [<-|I]; [cbn; tauto|]); destruct I. }
  assert (forall u, In u [CInt; CString; pet] -> exists v, has_type pet_env v u) as V.
  { intros u [<-|[<-|[<-|[]]]]; [exists (VInt 0); constructor|exists (VString []); constructor|].
    exists (VVariant 0 [VString []; VInt 0]). unfold pet. valued. }
  repeat constructor; intros u K; apply V, (C _ u K); cbn; tauto.
Qed.
Example C21_suggested_has_unmatched_example :
  well_typed pet_env literal_subjects literal_clauses /\ simple_case no_outside literal_clauses /\
  clauses_made_of true literal_clauses /\ Forall (furnished pet_env) literal_subjects /\
  suggestions pet_env pet_import nothing_internal literal_subjects literal_clauses = Done
    [str "_, p.Cat(name:, lives:)"; str "_, p.Dog(_, friend:)"].
Proof.
  split; [rows_typed|]. split; [simple_rows|]. split; [rows_made|]. split; [exact pet_furnished|]. vm_compute. reflexivity.
Qed.
Example C20_accepted_iff_exhaustive_example :
  (exists d x, compile_case pet_env literal_subjects literal_clauses = Done (d, x) /\ missing x = true) /\
  (exists d x, compile_case pet_env literal_subjects (literal_clauses ++
     [plain_clause [TPDiscard; cat TPDiscard TPDiscard]; plain_clause [TPVariable (str "n"); dog TPDiscard TPDiscard]]) = Done (d, x) /\ missing x = false).
Proof. split; do 2 eexists; (split; [vm_compute; reflexivity|reflexivity]). Qed.

(** ** Counterexamples *)

(** Types without values: [type Never { Never(Never) }] and [type Outcome { Fine(Int) Wrong(Never) }];
    [Wrong(_)] is suggested beside [Fine(_)], though there is no such value. *)
Definition never_env : environment :=
  Environment (str "m") (fun _ n =>
    if text_eqb n (str "Never") then Some (TypeVariants false [] [Constructor (str "Never") [(None, CNamed (str "m") (str "Never") [] None)]])
    else if text_eqb n (str "Outcome") then Some (TypeVariants false []
      [Constructor (str "Fine") [(None, CInt)]; Constructor (str "Wrong") [(None, CNamed (str "m") (str "Never") [] None)]])
    else None).
Definition never_type := CNamed (str "m") (str "Never") [] None.
Definition outcome := CNamed (str "m") (str "Outcome") [] None.
Lemma no_never : forall v, ~ has_type never_env v never_type.
Proof.
  assert (forall i vs, has_type never_env (VVariant i vs) never_type -> exists w, vs = [w] /\ has_type never_env w never_type) as K.
  { intros i vs H. inversion H as [| | | | | |m n args inferred tv j k us G N INF F| | | |]; subst.
    vm_compute in G. injection G as <-. cbn in N. destruct i as [|i]; [|destruct i; discriminate]. injection N as <-. cbn in F.
    inversion F as [|w t ws ts W F']; subst. inversion F'; subst. eauto. }
  fix IH 1. intros v. destruct v as [ | | | | | |i vs| |x]; intros H; try (now inversion H).
  - destruct vs as [|w vs]; destruct (K _ _ H) as (u & E & HU); [discriminate E|]. injection E as E _. apply (IH w). rewrite E. exact HU.
  - inversion H as [| | | | | | |m n args inferred tv y G N| | |]; subst. vm_compute in G. injection G as <-. discriminate.
Qed.
Definition fine_names := Names [((str "m", str "Fine"), str "Fine"); ((str "m", str "Wrong"), str "Wrong")] [].
Theorem C21_suggested_has_unmatched_refuted_by_empty_types :
  exists cls, well_typed never_env [outcome] cls /\ simple_case no_outside cls /\ clauses_made_of true cls /\
    suggestions never_env fine_names nothing_internal [outcome] cls = Done [str "Wrong(_)"] /\
    forall values, Forall2 (has_type never_env) values [outcome] -> ~ unmatched no_outside no_float_is all_finite cls values.
Proof.
  exists [plain_clause [TPConstructor 0 (str "Fine") (str "Fine") None [TPDiscard]]].
  split; [rows_typed|]. split; [simple_rows|]. split; [rows_made|]. split; [vm_compute; reflexivity|].
  intros values TV U. inversion TV as [|v t vs ts H N]; subst. inversion N; subst.
  inversion H as [| | | | | |m n args inferred tv i k vs G K INF F|m n args inferred tv y G K| | |]; subst; vm_compute in G; injection G as <-; [|discriminate].
  cbn in K. destruct i as [|[|i]]; [|injection K as <-; cbn in F; inversion F as [|w t ws ts W]; subst; now apply no_never in W|destruct i; discriminate].
  injection K as <-. cbn in F. inversion F as [|w t ws ts W F']; subst. inversion F'; subst.
  eapply (U (Row 0 0 [TPConstructor 0 (str "Fine") (str "Fine") None [TPDiscard]] None)); [now left|reflexivity|].
  cbn. eapply match_more; [|constructor]. apply match_constructor. eapply match_more; constructor.
Qed.
Print Assumptions C21_suggested_has_unmatched_refuted_by_empty_types.

(** And [_] is suggested beside [""<> _]. *)
Theorem C21_suggested_has_unmatched_refuted_by_prefixes :
  exists cls, well_typed pet_env [CString] cls /\ simple_case no_outside cls /\
    suggestions pet_env no_import nothing_internal [CString] cls = Done [str "_"] /\
    forall values, Forall2 (has_type pet_env) values [CString] -> ~ unmatched no_outside no_float_is all_finite cls values.
Proof.
  exists [plain_clause [prefix ""]]. split; [rows_typed|]. split; [simple_rows|]. split; [vm_compute; reflexivity|].
  intros values TV U. inversion TV as [|v t vs ts H N]; subst. inversion N; subst. inversion H; subst.
  eapply U; [now left|reflexivity|]. cbn. apply match_more with (bs := []) (bs' := []); [|constructor].
  apply (match_prefix no_outside no_float_is all_finite [] [] None None s). constructor.
Qed.
Print Assumptions C21_suggested_has_unmatched_refuted_by_prefixes.
