(** C101, C102, C103: names of variables in generated JavaScript. *)
From Coq Require Import NArith Bool String List Lia.
From Verif Require Import Text TextProofs JsScope JsScopeSpec JsScopeProofs.
Import ListNotations.
Local Open Scope nat_scope.
Local Open Scope list_scope.

(** The names of a module and the arguments of one of its functions. *)
Definition own_names (l : list (text * nat)) : Prop := NoDup (map fst l) /\ Forall written (map fst l).

Lemma own_arguments l : own_names l -> arguments l.
Proof. intros (D & W). split; auto. eapply Forall_impl; [|exact W]. auto. Qed.

(** ** C101 *)

(** No block, function or loop declares a name twice, whatever the module declares. *)
Theorem C101_no_name_is_declared_twice : forall tail_recursion_used globals args body,
  own_names args -> proper body -> legal [module_function tail_recursion_used globals args body].
Proof.
  intros t globals args body O P. pose proof (own_arguments args O) as A. unfold module_function.
  pose proof (body_distinct args body (new (module_scope globals)) [] A P) as D.
  pose proof (legal_statements body P (set_arguments (new (module_scope globals)) args) []) as L.
  destruct (statements (set_arguments (new (module_scope globals)) args) [] body) as [[s' h'] out].
  destruct t; constructor; auto; [| |constructor|constructor].
  - unfold tail_call_loop. cbn [declarations]. rewrite app_nil_r. apply loop_distinct. apply O.
  - unfold tail_call_loop. fold (loop_out args). constructor; [|apply legal_app; auto; apply legal_loop|constructor].
    cbn [app]. rewrite declarations_app, declarations_loop. exact D.
Qed.
Print Assumptions C101_no_name_is_declared_twice.

(** Neither do the names of a module become the same. *)
Theorem C101_names_of_a_module_stay_distinct : forall globals,
  own_names globals -> NoDup (fst (module_frame globals)).
Proof. intros globals O. apply parameters_distinct. now apply own_arguments. Qed.
Print Assumptions C101_names_of_a_module_stay_distinct.

(** ** C102 *)

(** Each reference is to what it refers to in Gleam. *)
Definition refers_as_gleam_does (orderly : list code -> Prop) : Prop :=
  forall tail_recursion_used globals args body refs,
    own_names globals -> own_names args -> proper body -> orderly body ->
    means (args ++ globals) body refs ->
    runs [module_frame globals] [module_function tail_recursion_used (map fst globals) args body]
      ((if tail_recursion_used then map snd args else []) ++ refs).

Theorem C102_references_are_to_what_gleam_says_partial : refers_as_gleam_does blocks_last.
Proof.
  intros t globals args body refs (GD & GW) O P B M. pose proof (own_arguments args O) as A. unfold module_function.
  set (s := new (module_scope (map fst globals))).
  destruct t.
  - pose proof (sees_enter s [] globals _ args body A P (sees_loop globals args GD GW A)) as S.
    pose proof (references _ _ _ M P B (set_arguments s args) []) as R.
    pose proof (loop_not_ident args body s [] A (proj2 O) P) as N.
    destruct (statements (set_arguments s args) [] body) as [[s' h'] out].
    specialize (R _ _ _ (sees_more _ _ _ _ _ (rev (parameters args) ++ []) _ S
      ltac:(intros x J; rewrite app_nil_r; now apply in_rev in J))).
    assert (I : incl (map fst (declarations out)) (map fst (parameters args ++ declarations out))).
    { intros x J. rewrite map_app. apply in_or_app. now right. }
    specialize (R I [] [] (runs_end _)). rewrite (app_nil_r out), (app_nil_r refs) in R.
    pose proof (runs_loop _ [(map fst (loop_parameters args), loop_parameters args); module_frame globals] args N args [] _ _
      (fun x J => J)
      ltac:(intros n b J; apply finds_here; [apply in_map_iff; exists (str "loop$" ++ n, b); split; auto|];
            unfold loop_parameters; apply in_map_iff; exists (n, b); auto) R) as Q.
    assert (E : map snd args ++ refs = ((map snd args ++ refs) ++ []) ++ []) by (now rewrite !app_nil_r).
    rewrite E. apply runs_braces; [|constructor]. unfold tail_call_loop. fold (loop_out args).
    cbn [declarations]. rewrite app_nil_r. apply runs_braces; [|constructor].
    cbn [app]. rewrite declarations_app, declarations_loop. exact Q.
  - pose proof (sees_enter s [] globals _ args body A P (module_sees globals GD GW)) as S.
    pose proof (references _ _ _ M P B (set_arguments s args) []) as R.
    destruct (statements (set_arguments s args) [] body) as [[s' h'] out].
    specialize (R _ _ _ S).
    assert (I : incl (map fst (declarations out)) (map fst (parameters args ++ declarations out))).
    { intros x J. rewrite map_app. apply in_or_app. now right. }
    specialize (R I [] [] (runs_end _)). rewrite !app_nil_r in R.
    cbn [app]. rewrite <- (app_nil_r refs). apply runs_braces; [exact R|constructor].
Qed.
Print Assumptions C102_references_are_to_what_gleam_says_partial.

(** Not so after a block that is a statement and declares a name again, as in
    [let x = 1  { let x = 2  x }  x]: the last reference is [x$1], which is not in scope. *)
Definition sx := str "x".
Definition after_a_block : list code := [Let sx 1; Block [Let sx 2; Use sx]; Use sx].

Example after_a_block_generated :
  module_function false [] [] after_a_block
  = Braces [] [Declare (str "x") 1; Braces [] [Declare (str "x$1") 2; Refer (str "x$1")]; Refer (str "x$1")].
Proof. reflexivity. Qed.

Lemma sx_written : written sx.
Proof.
  split; [|split].
  - exists 120%N, []. split; [reflexivity|]. split; [left; unfold lower; lia|constructor].
  - unfold made, sx. vm_compute. intuition discriminate.
  - discriminate.
Qed.

Theorem C102_references_are_to_what_gleam_says_refuted : ~ refers_as_gleam_does (fun _ => True).
Proof.
  intros H. specialize (H false [] [] after_a_block [2; 1]).
  assert (R : runs [module_frame []] [module_function false [] [] after_a_block] [2; 1]).
  { apply H; try (split; constructor); auto; unfold after_a_block.
    - apply proper_let; [left; apply sx_written|]. apply proper_block.
      + apply proper_let; [left; apply sx_written|]. apply proper_use; [left; apply sx_written|constructor].
      + apply proper_use; [left; apply sx_written|constructor].
    - apply means_let. apply (means_block _ _ [2] _ [1]).
      + apply means_let. apply means_use; [|apply sx_written|constructor]. exists [], [(sx, 1)]. auto.
      + apply means_use; [|apply sx_written|constructor]. exists [], []. auto. }
  rewrite after_a_block_generated in R.
  revert R. generalize [2; 1]. intros refs R.
  inversion R as [| | |fs ps bd r l r' RB RE]; subst.
  inversion RB as [|al be fs x b l r0 R1| |]; subst.
  inversion R1 as [| | |fs2 ps bd r1 l2 r2 R2 R3]; subst.
  inversion R3 as [| |fs3 x b l3 r3 F R4|]; subst.
  inversion F as [? ? ? ? ? I J|? ? ? ? ? I J]; subst.
  - cbn in I. destruct I as [I|[]]. discriminate.
  - inversion J as [? ? ? ? ? I2 J2|? ? ? ? ? I2 J2]; subst; [destruct I2|inversion J2].
Qed.
Print Assumptions C102_references_are_to_what_gleam_says_refuted.

(** ** C103 *)
Theorem C103_names_are_identifiers : forall tail_recursion_used globals args body x,
  own_names args -> proper body -> occurs x [module_function tail_recursion_used globals args body] -> js_identifier x.
Proof.
  intros t globals args body x O P I. pose proof (own_arguments args O) as A. unfold module_function in I.
  pose proof (occurs_statements body P (set_arguments (new (module_scope globals)) args) []) as L.
  destruct (statements (set_arguments (new (module_scope globals)) args) [] body) as [[s' h'] out].
  assert (PA : forall y b, In (y, b) (parameters args) -> js_identifier y).
  { intros y b J. apply parameters_ident in J. destruct J as (n & J & ->). apply ident_legal.
    eapply arguments_named; eauto. apply in_map_iff. now exists (n, b). }
  assert (LO : occurs x out -> js_identifier x).
  { intros J. destruct (L x J) as (n & k & N & ->). now apply ident_legal. }
  destruct t; inversion I; subst; try (now eauto); try (match goal with H : occurs x [] |- _ => inversion H end).
  - unfold loop_parameters in H0. apply in_map_iff in H0. destruct H0 as ([n c] & E & J). injection E as <- <-.
    apply loop_legal_identifier. destruct O as (_ & W). rewrite Forall_forall in W. apply W. apply in_map_iff. now exists (n, c).
  - unfold tail_call_loop in H0. fold (loop_out args) in H0.
    assert (H1 : occurs x (loop_out args ++ out)).
    { inversion H0; subst; auto; [match goal with H : In _ [] |- _ => destruct H end|match goal with H : occurs x [] |- _ => inversion H end]. }
    apply occurs_app in H1. destruct H1 as [H1|H1]; auto.
    assert (X : forall l, incl l args -> occurs x (loop_out l) -> js_identifier x).
    { unfold loop_out. induction l as [|[n b] l IH]; intros Inc J; cbn [flat_map app] in J; [inversion J|].
      inversion J as [| | |? ? J1]; subst. inversion J1 as [? ?| | |? ? J2]; subst.
      - eapply (PA (maybe_escape_identifier n) b). unfold parameters. apply in_map_iff. exists (n, b). split; auto. apply Inc. now left.
      - apply IH; auto. intros y K. apply Inc. now right. }
    apply (X args); auto. intros y K. exact K.
Qed.
Print Assumptions C103_names_are_identifiers.

(** ** Examples *)
Definition scls := str "class".
Definition example_body : list code :=
  [Let (str "_pipe") 4; Held 4; Direct [Let sx 5; Use sx]; Use sx; Nested [Let sx 6; Use sx];
   Let sx 7; Fn [(scls, 8)] [Use scls; Use sx; Let scls 9; Use scls]; Use (str "f"); Held 4].

Example example_generated :
  module_function true [str "f"; str "x"] [(sx, 1)] example_body
  = Braces [(str "loop$x", 1)]
     [Braces [] [Refer (str "loop$x"); Declare (str "x") 1;
        Declare (str "_pipe") 4; Refer (str "_pipe"); Declare (str "x$1") 5; Refer (str "x$1"); Refer (str "x");
        Braces [] [Declare (str "x$2") 6; Refer (str "x$2")]; Declare (str "x$2") 7;
        Braces [(str "class$", 8)] [Refer (str "class$"); Refer (str "x$2"); Declare (str "class$1") 9; Refer (str "class$1")];
        Refer (str "f"); Refer (str "_pipe")]].
Proof. reflexivity. Qed.

Ltac look := first [exists []; eexists; split; [reflexivity|cbn; tauto]
                   |eexists [_]; eexists; split; [reflexivity|cbn; intuition discriminate]
                   |eexists [_; _]; eexists; split; [reflexivity|cbn; intuition discriminate]
                   |eexists [_; _; _]; eexists; split; [reflexivity|cbn; intuition discriminate]].
Example example_means :
  means ([(sx, 1)] ++ [(str "f", 2); (sx, 3)]) example_body [4; 5; 1; 6; 8; 7; 9; 2; 4].
Proof.
  assert (NM : ~ made sx) by (vm_compute; intuition discriminate).
  assert (NC : ~ made scls) by (vm_compute; intuition discriminate).
  assert (NF : ~ made (str "f")) by (vm_compute; intuition discriminate).
  assert (PM : made (str "_pipe")) by (vm_compute; tauto).
  unfold example_body. cbn [app].
  apply means_let. apply means_held; [exists [], (str "_pipe"); eexists; split; [reflexivity|split; [exact PM|intros []]]|].
  apply (means_direct _ _ [5]); [apply means_let; apply means_use; [look|auto|constructor]|].
  apply means_use; [look|auto|].
  apply (means_nested _ _ [6]); [apply means_let; apply means_use; [look|auto|constructor]|].
  apply means_let.
  apply (means_fn _ _ _ [8; 7; 9]).
  { apply means_use; [look|auto|]. apply means_use; [look|auto|]. apply means_let. apply means_use; [look|auto|constructor]. }
  apply means_use; [look|auto|].
  apply means_held; [|constructor].
  exists [(sx, 7)], (str "_pipe"). eexists. split; [reflexivity|]. split; [exact PM|]. intros [?|[]]. discriminate.
Qed.

(** That no name is reserved says something: [class] is a name of Gleam, and [loop] too. *)
Example class_is_a_word : In scls es_words /\ js_identifier (str "class$").
Proof.
  split; [vm_compute; tauto|]. apply (ident_legal scls 0). left. split; [|split].
  - exists 99%N, (str "lass"). split; [reflexivity|]. split; [left; unfold lower; lia|].
    unfold lower. cbn. repeat (apply Forall_cons; [lia|]). constructor.
  - vm_compute. intuition discriminate.
  - discriminate.
Qed.
