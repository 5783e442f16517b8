(** C75, C76, C77, C78, C79, C80: what refers to what in a module, what of it is unused, and which
    warnings are given and which code is left out for that. *)
From Coq Require Import String NArith List Bool Arith Lia Permutation.
From Verif Require Import Text TextProofs Reference ReferenceSpec ReferenceMarkProofs ReferenceProofs ReferenceStepProofs
  ReferenceUnusedProofs ReferenceNotesProofs.
Import ListNotations.
Local Open Scope nat_scope.
Local Open Scope list_scope.

(** A module:
<<
import wibble.{helper, spare}
import wobble/woo as w

type Shape { Square }
pub fn main() { used() }
fn used() { limit + helper() }
fn dead() { dying() }
fn dying() { dead() w.go() }
const limit = 1
>> *)
Definition here := Span 500 504.
Definition sample : list call :=
  [ RegisterModule (str "wibble") (str "wibble") (Span 0 29) (Span 7 13);
    RegisterValue (str "helper") (ImportedValue (str "wibble")) (Span 15 21) Private;
    RegisterValueReference (str "wibble") (str "helper") (str "helper") (Span 15 21) (Import here);
    RegisterValue (str "spare") (ImportedValue (str "wibble")) (Span 23 28) Private;
    RegisterValueReference (str "wibble") (str "spare") (str "spare") (Span 23 28) (Import here);
    RegisterAliasedModule (str "w") (str "wobble/woo") (Span 48 52) (Span 30 52) (Span 37 47);
    RegisterType (str "Shape") Type_ (Span 60 70) Private;
    RegisterTypeReference (str "m") (str "Shape") (str "Shape") (Span 65 70) Definition_;
    RegisterValue (str "main") Function (Span 80 90) Public;
    RegisterValue (str "used") Function (Span 100 110) Private;
    RegisterValue (str "dead") Function (Span 120 130) Private;
    RegisterValue (str "dying") Function (Span 140 150) Private;
    RegisterValue (str "Square") Constructor (Span 72 78) Private;
    RegisterTypeReferenceInCallGraph (str "Shape");
    BeginConstant;
    RegisterConstant (str "limit") (Span 160 170) Private;
    SetCurrentNode (str "main");
    RegisterValueReference (str "m") (str "used") (str "used") here Unqualified;
    SetCurrentNode (str "used");
    RegisterValueReference (str "m") (str "limit") (str "limit") here Unqualified;
    RegisterValueReference (str "wibble") (str "helper") (str "helper") here Unqualified;
    SetCurrentNode (str "dead");
    RegisterValueReference (str "m") (str "dying") (str "dying") here Unqualified;
    SetCurrentNode (str "dying");
    RegisterValueReference (str "m") (str "dead") (str "dead") here Unqualified;
    RegisterModuleReferenceByAlias (str "w");
    RegisterValueReference (str "wobble/woo") (str "go") (str "go") here (Qualified (str "w") (Span 400 401)) ]%string.

Ltac orderly_by_computation :=
  lazymatch goal with |- orderly ?cs => unfold orderly; let cs' := eval hnf in cs in change cs with cs' end;
  repeat lazymatch goal with
  | |- proper_from (_ :: _) _ => refine (conj _ _)
  | |- proper_from [] _ => exact I
  | |- proper_from ?cs _ => let cs' := eval hnf in cs in change cs with cs'
  end;
  vm_compute;
  repeat lazymatch goal with
  | |- True => exact I
  | |- _ /\ _ => split
  | |- exists _, _ => eexists
  | |- _ -> _ => intro
  | |- _ = _ => first [reflexivity | discriminate]
  end.

Example sample_orderly : orderly sample.
Proof. orderly_by_computation. Qed.

(** What is found unused, in the order of the model's own lists. *)
Definition found (cs : list call) : list (text * entity_kind * span) :=
  match analysed cs with
  | Some t => map shown (unused (public_entities t) (entities t) t)
  | None => []
  end.

(** C75: whatever the calls are, none panics, as long as no constant is registered that was not
    begun. *)
Theorem C75_tracker_never_panics : forall cs, constants_begun cs -> exists t, analysed cs = Some t.
Proof. exact nothing_panics. Qed.
Print Assumptions C75_tracker_never_panics.

Example C75_sample : exists t, analysed sample = Some t /\ nodes t = 12 /\ List.length (edges t) = 10.
Proof. eexists. split; [vm_compute; reflexivity|]. split; vm_compute; reflexivity. Qed.
(** It is needed. *)
Example C75_constant_not_begun :
  analysed [ RegisterConstant (str "limit"%string) here Private;
             RegisterValueReference (str "m"%string) (str "limit"%string) (str "limit"%string) here Unqualified ] = None.
Proof. vm_compute. reflexivity. Qed.

(** C76: exactly the definitions are found unused that nothing public leads to, in whatever order
    the sets and maps are gone through. *)
Theorem C76_unused_definitions : forall cs, orderly cs ->
  exists t, analysed cs = Some t /\
  forall publics all, Permutation publics (public_entities t) -> Permutation all (entities t) ->
  exists is,
    NoDup is
    /\ Forall2 (shows (written cs)) is
         (filter (fun x => defined_kind (snd (fst x))) (map shown (unused publics all t)))
    /\ forall i, In i is <-> exists it k where_,
         item_at (written cs) i it /\ i_known it = Known k where_ /\ defined_kind k = true
         /\ ~ used (written cs) i.
Proof.
  intros cs O. destruct (analysed_tracks cs O) as (t & E & T & S). exists t. split; [exact E|].
  intros publics all PP PA. exact (unused_definitions _ _ S T _ _ PP PA).
Qed.
Print Assumptions C76_unused_definitions.

(** [dead] and [dying] refer to each other only. *)
Example C76_sample :
  filter (fun x => defined_kind (snd (fst x))) (found sample)
  = [ (str "Square", Constructor, Span 72 78);
      (str "dying", Function, Span 140 150);
      (str "dead", Function, Span 120 130);
      (str "Shape", Type_, Span 60 70) ]%string.
Proof. vm_compute. reflexivity. Qed.

(** C77: the same of everything, imports too.  Two conditions are needed: that the recorded references
    tell the imports of a module's things from other references to it, and that no two things of a
    name, whatever they are, have lost it. *)
Theorem C77_unused_imports_partial : forall cs, orderly cs ->
  lists_tell cs -> taken_over_once (written cs) ->
  exists t, analysed cs = Some t /\
  forall publics all, Permutation publics (public_entities t) -> Permutation all (entities t) ->
  exists is,
    NoDup is /\ Forall2 (shows (written cs)) is (map shown (unused publics all t))
    /\ forall i, In i is <-> exists it k where_,
         item_at (written cs) i it /\ i_known it = Known k where_ /\ ~ used (written cs) i.
Proof.
  intros cs O LT ON. destruct (analysed_tracks cs O) as (t & E & T & S). exists t. split; [exact E|].
  intros publics all PP PA.
  exact (unused_all _ _ S T _ _ PP PA cs eq_refl (recorded_types cs t E) (recorded_values cs t E) LT ON).
Qed.
Print Assumptions C77_unused_imports_partial.

(** The aliased module is used by a function that is not, [spare] is not used. *)
Example C77_sample :
  filter (fun x => negb (defined_kind (snd (fst x)))) (found sample)
  = [ (str "spare", ImportedValue (str "wibble"), Span 23 28) ]%string.
Proof. vm_compute. reflexivity. Qed.

Example C77_sample_conditions : lists_tell sample /\ taken_over_once (written sample).
Proof.
  split.
  - unfold lists_tell. cbn zeta. intros i it j jt A B R N P M SC. unfold item_at in A, B.
    assert (W : exists r, refs (written sample) = r) by eauto. destruct W as [r W].
    rewrite W in R. vm_compute in W. subst r.
    repeat (destruct R as [R|R]; [inversion R; subst i j; vm_compute in A, B; inversion A; inversion B; subst it jt;
      try discriminate M; try discriminate P; try (elim N; reflexivity)|]); try destruct R.
    + split; [|discriminate]. intros (r & w & k & H). exfalso. vm_compute in H.
      destruct H as [H|H]; repeat (destruct H as [H|H]; [discriminate H|]); exact H.
    + split; [reflexivity|]. intros _. do 3 eexists. left. do 4 right. left. reflexivity.
    + split; [reflexivity|]. intros _. do 3 eexists. left. do 2 right. left. reflexivity.
  - assert (O : forall n i, overtaken (written sample) n i -> i = 3).
    { intros n i (it & A & B & C & D). unfold item_at in A.
      do 12 (destruct i as [|i]; [vm_compute in A; inversion A; subst it n;
        first [reflexivity | exfalso; apply D; vm_compute; reflexivity | exfalso; apply C; reflexivity]|]).
      vm_compute in A. destruct i; discriminate. }
    intros n i j A B. rewrite (O _ _ A), (O _ _ B). reflexivity.
Qed.

(** [import wibble] and the unused [fn wobble() { wibble.wobble() }]: the import is found unused,
    since [wobble] of [wibble] was recorded and [wobble] is taken for it. *)
Definition namesakes : list call :=
  [ RegisterModule (str "wibble") (str "wibble") (Span 0 13) (Span 7 13);
    RegisterValue (str "wobble") Function (Span 20 30) Private;
    SetCurrentNode (str "wobble");
    RegisterModuleReferenceByAlias (str "wibble");
    RegisterValueReference (str "wibble") (str "wobble") (str "wobble") here (Qualified (str "wibble") (Span 40 46)) ]%string.
Theorem C77_used_import_found_unused_refuted : exists cs i it k where_,
  orderly cs /\ taken_over_once (written cs) /\
  item_at (written cs) i it /\ i_known it = Known k where_ /\ used (written cs) i
  /\ In (i_name it, k, where_) (found cs).
Proof.
  exists namesakes, 0. do 3 eexists. split; [orderly_by_computation|].
  split; [|split; [vm_compute; reflexivity|]].
  - intros n i j (it & A & B & C & D) _. exfalso. unfold item_at in A.
    destruct i as [|[|i]]; vm_compute in A.
    + inversion A; subst it; subst n. apply D. vm_compute. reflexivity.
    + inversion A; subst it; subst n. apply D. vm_compute. reflexivity.
    + destruct i; discriminate.
  - split; [vm_compute; reflexivity|]. split.
    + eapply (used_module _ 1); [vm_compute; reflexivity|vm_compute; reflexivity|reflexivity| |vm_compute; reflexivity|reflexivity].
      vm_compute. auto.
    + vm_compute. auto.
Qed.
Print Assumptions C77_used_import_found_unused_refuted.

(** [import wibble/wobble.{thing}] and nothing else: the import is not found unused, since the
    reference to [thing] is recorded under another name than the one that the module goes by. *)
Definition nested : list call :=
  [ RegisterModule (str "wobble") (str "wibble/wobble") (Span 0 30) (Span 7 20);
    RegisterValue (str "thing") (ImportedValue (str "wibble/wobble")) (Span 22 27) Private;
    RegisterValueReference (str "wibble/wobble") (str "thing") (str "thing") (Span 22 27) (Import here) ]%string.
Theorem C77_unused_import_not_found_refuted : exists cs i it k where_,
  orderly cs /\ taken_over_once (written cs) /\
  item_at (written cs) i it /\ i_known it = Known k where_ /\ ~ used (written cs) i
  /\ ~ In (i_name it, k, where_) (found cs).
Proof.
  exists nested, 0. do 3 eexists. split; [orderly_by_computation|].
  split; [|split; [vm_compute; reflexivity|]].
  - intros n i j (it & A & B & C & D) _. exfalso. unfold item_at in A.
    destruct i as [|[|i]]; vm_compute in A.
    + inversion A; subst it; subst n. apply D. vm_compute. reflexivity.
    + inversion A; subst it; subst n. apply D. vm_compute. reflexivity.
    + destruct i; discriminate.
  - split; [vm_compute; reflexivity|]. split.
    + assert (U : forall i, used (written nested) i -> False); [|exact (U 0)].
      intros i H. induction H as [i it A P|i it k w j jt A K D R B M|i j U IH R]; [| |exact IH];
        unfold item_at in A; destruct i as [|[|i]]; vm_compute in A; try (destruct i; discriminate);
        inversion A; subst it; cbn in *; try discriminate; inversion K; subst k; discriminate.
    + vm_compute. intuition discriminate.
Qed.
Print Assumptions C77_unused_import_not_found_refuted.

(** [import a.{type Wibble, Wibble}] and a type [Wibble] with a constructor [Wibble] of its own: only
    one of the two imports is found unused. *)
Definition twice : list call :=
  [ RegisterModule (str "a") (str "a") (Span 0 30) (Span 7 8);
    RegisterType (str "Wibble") (ImportedType (str "a")) (Span 10 21) Private;
    RegisterTypeReference (str "a") (str "Wibble") (str "Wibble") (Span 10 21) (Import here);
    RegisterValue (str "Wibble") (ImportedConstructor (str "a")) (Span 23 29) Private;
    RegisterValueReference (str "a") (str "Wibble") (str "Wibble") (Span 23 29) (Import here);
    RegisterType (str "Wibble") Type_ (Span 40 50) Public;
    RegisterValue (str "Wibble") Constructor (Span 52 60) Public;
    RegisterTypeReferenceInCallGraph (str "Wibble") ]%string.
Theorem C77_taken_over_twice_refuted : exists cs i it k where_,
  orderly cs /\ lists_tell cs /\
  item_at (written cs) i it /\ i_known it = Known k where_ /\ ~ used (written cs) i
  /\ ~ In (i_name it, k, where_) (found cs).
Proof.
  exists twice, 1. do 3 eexists. split; [orderly_by_computation|].
  split; [|split; [vm_compute; reflexivity|]].
  - unfold lists_tell. cbn zeta. intros i it j jt A B R N P M SC. unfold item_at in A, B.
    assert (J : j = 0).
    { destruct j as [|[|[|[|[|j]]]]]; vm_compute in B; try (destruct j; discriminate); inversion B; subst jt; try discriminate M; reflexivity. }
    subst j. vm_compute in B. inversion B; subst jt. clear B.
    destruct i as [|[|[|[|[|i]]]]]; vm_compute in A; try (destruct i; discriminate);
      inversion A; subst it; clear A; try discriminate P; try (elim N; reflexivity).
    + split; [reflexivity|]. intros _. do 3 eexists. right. right. right. left. reflexivity.
    + split; [reflexivity|]. intros _. do 3 eexists. right. right. right. left. reflexivity.
  - split; [vm_compute; reflexivity|]. split.
    + assert (U : forall i, used (written twice) i -> i = 3 \/ i = 4); [|intros H; destruct (U 1 H); discriminate].
      intros i H. induction H as [i it A P|i it k w j jt A K D R B M|i j U IH R].
      * unfold item_at in A. destruct i as [|[|[|[|[|i]]]]]; vm_compute in A; try (destruct i; discriminate);
          inversion A; subst it; try discriminate P; auto.
      * vm_compute in R. decompose [or] R; try contradiction;
          match goal with E : (_, _) = (_, _) |- _ => inversion E; subst i j end; auto;
          unfold item_at in A; vm_compute in A; inversion A; subst it; inversion K; subst k; discriminate.
      * vm_compute in R. decompose [or] R; try contradiction;
          match goal with E : (_, _) = (_, _) |- _ => inversion E; subst i j end; auto;
          destruct IH; discriminate.
    + vm_compute. intuition discriminate.
Qed.
Print Assumptions C77_taken_over_twice_refuted.

(** C78: code is left out for exactly the functions, constants and types that are not used: never for
    what is public, and never for what is referred to by a definition that stays.  No two of them
    start at the same place. *)
Theorem C78_used_code_stays : forall cs, orderly cs ->
  (forall i j it jt ki kj wi wj,
     item_at (written cs) i it -> i_known it = Known ki wi -> has_code ki = true ->
     item_at (written cs) j jt -> i_known jt = Known kj wj -> has_code kj = true ->
     start wi = start wj -> i = j) ->
  exists t, analysed cs = Some t /\
  forall publics all us, Permutation publics (public_entities t) -> Permutation all (entities t) ->
    Permutation us (unused publics all t) ->
    forall i it k where_,
      item_at (written cs) i it -> i_known it = Known k where_ -> has_code k = true ->
      (In (start where_) (snd (handle_unused us)) <-> ~ used (written cs) i)
      /\ (i_public it = true -> ~ In (start where_) (snd (handle_unused us)))
      /\ (~ In (start where_) (snd (handle_unused us)) ->
          forall j jt kj wj, In (i, j) (refs (written cs)) ->
            item_at (written cs) j jt -> i_known jt = Known kj wj -> has_code kj = true ->
            ~ In (start wj) (snd (handle_unused us))).
Proof.
  intros cs O D. destruct (analysed_tracks cs O) as (t & E & T & S). exists t. split; [exact E|].
  intros publics all us PP PA PU.
  destruct (unused_definitions _ _ S T _ _ PP PA) as (is & ND & SH & IFF).
  assert (HC : forall k, has_code k = true -> defined_kind k = true) by (intros []; cbn; congruence).
  assert (MAIN : forall i it k where_, item_at (written cs) i it -> i_known it = Known k where_ -> has_code k = true ->
      (In (start where_) (snd (handle_unused us)) <-> ~ used (written cs) i)).
  { intros i it k where_ AT K C. rewrite (proj2 (handled us) (start where_)). split.
    - intros (n & k' & w' & I & C' & EQ).
      assert (I2 : In (n, k', w') (filter (fun x => defined_kind (snd (fst x))) (map shown (unused publics all t)))).
      { apply filter_In. split; [|cbn; auto]. eapply Permutation_in; [|exact I]. now apply Permutation_map. }
      clear I. assert (X : exists j, In j is /\ shows (written cs) j (n, k', w')).
      { clear -SH I2. induction SH; [destruct I2|]. destruct I2 as [<-|I2]; [eexists; split; [now left|assumption]|].
        destruct (IHSH I2) as (j & J & Sh). eexists; split; [right; exact J|exact Sh]. }
      destruct X as (j & J & (jt & kj & wj & AJ & KJ & EJ)). inversion EJ; subst kj wj n.
      rewrite (D i j _ _ _ _ _ _ AT K C AJ KJ C' EQ). now apply IFF in J as (? & ? & ? & _ & _ & _ & NU).
    - intros NU. assert (J : In i is) by (apply IFF; exists it, k, where_; auto).
      assert (X : exists x, In x (filter (fun x => defined_kind (snd (fst x))) (map shown (unused publics all t))) /\ shows (written cs) i x).
      { clear -SH J. induction SH; [destruct J|]. destruct J as [<-|J]; [eexists; split; [now left|assumption]|].
        destruct (IHSH J) as (z & X & Sh). eexists; split; [right; exact X|exact Sh]. }
      destruct X as (x & X & (it' & k' & w' & A' & K' & ->)). unfold item_at in *. rewrite AT in A'. inversion A'; subst it'.
      rewrite K in K'. inversion K'; subst k' w'. exists (i_name it), k, where_. split; [|auto].
      apply filter_In in X as [X _]. eapply Permutation_in; [|exact X]. apply Permutation_map. now symmetry. }
  intros i it k where_ AT K C. split; [now apply (MAIN i it k)|]. split.
  - intros P I. apply (MAIN i it k where_ AT K C) in I. apply I. eapply used_public; eauto.
  - intros NI j jt kj wj R AJ KJ CJ I. apply (MAIN j jt kj wj AJ KJ CJ) in I. apply NI.
    apply (MAIN i it k where_ AT K C). intros U. apply I. eapply used_reference; eauto.
Qed.
Print Assumptions C78_used_code_stays.

Example C78_sample :
  match analysed sample with
  | Some t => snd (handle_unused (unused (public_entities t) (entities t) t)) = [60; 120; 140]%N
  | None => False
  end.
Proof. vm_compute. reflexivity. Qed.

(** C79: there is one warning for everything that is unused, telling what and where it is; none for
    what was imported, or an alias, when the module is unused itself. *)
Theorem C79_warnings_for_unused : forall us,
  exists told_about,
    (forall x, told_about x = true <-> ~ goes_with_import (map shown us) x)
    /\ Permutation (fst (handle_unused us)) (map warns (filter told_about (map shown us))).
Proof. intros us. exact (proj1 (handled us)). Qed.
Print Assumptions C79_warnings_for_unused.

Example C79_sample :
  match analysed sample with
  | Some t => fst (handle_unused (unused (public_entities t) (entities t) t))
      = [ UnusedConstructor (Span 72 78) false (str "Square");
          UnusedPrivateFunction (Span 140 150) (str "dying");
          UnusedPrivateFunction (Span 120 130) (str "dead");
          UnusedType (Span 60 70) false (str "Shape");
          UnusedImportedValue (Span 23 28) (str "spare") ]%string
  | None => False
  end.
Proof. vm_compute. reflexivity. Qed.
(** With the module its item and its alias go. *)
Example C79_with_the_module :
  fst (handle_unused
         [ (Entity (str "helper") LValue, Information (Span 15 21) (ImportedValue (str "wibble")));
           (Entity (str "w") LShadowed, Information (Span 0 22) (ImportedModule (str "wibble")));
           (Entity (str "w") LModule, Information (Span 23 27) (ModuleAlias (str "wibble"))) ]%string)
  = [ UnusedImportedModule (Span 0 22) (str "w"%string) ].
Proof. vm_compute. reflexivity. Qed.

(** C80: every reference is kept, in the order of the calls, and none that was not registered. *)
Theorem C80_references_are_kept : forall cs t, analysed cs = Some t ->
  (forall m n,
     (match get pair_eqb (m, n) (value_references t) with Some l => l | None => [] end)
       = flat_map (value_references_to m n) cs
     /\ (match get pair_eqb (m, n) (type_references t) with Some l => l | None => [] end)
       = flat_map (type_references_to m n) cs)
  /\ (forall ty f,
     (match get label_eqb (RecordLabel (fst ty) (snd ty) f) (label_references t) with Some l => l | None => [] end)
       = flat_map (label_references_to ty f) cs
     /\ (match get label_eqb (RecordLabel (fst ty) (snd ty) f) (label_definitions t) with Some l => l | None => [] end)
       = flat_map (label_definitions_of ty f) cs)
  /\ forall m, told (writes_module m) cs
       (match get text_eqb m (module_references t) with Some l => l | None => [] end).
Proof.
  assert (ST : forall A (l : list A), match stored l with Some l => l | None => [] end = l) by (intros A []; reflexivity).
  intros cs t E. split; [|split].
  - intros m n. destruct (references_noted cs t E m n ([], []) []) as (A & B & _). rewrite A, B, !ST. auto.
  - intros ty f. destruct (references_noted cs t E [] [] ty f) as (_ & _ & A & B). rewrite A, B, !ST. auto.
  - intros m. destruct (modules_noted cs t E m) as (L & TL & G). now rewrite G, ST.
Qed.
Print Assumptions C80_references_are_kept.

Example C80_sample :
  match analysed sample with
  | Some t =>
      get pair_eqb (str "wibble", str "helper")%string (value_references t)
        = Some [ Reference (Span 15 21) (Import here); Reference here Unqualified ]
      /\ get text_eqb (str "wobble/woo"%string) (module_references t)
        = Some [ AliasedImport (Span 37 47) (Span 48 52) (str "w"%string); AliasedModuleSelect (Span 400 401) ]
  | None => False
  end.
Proof. vm_compute. auto. Qed.
