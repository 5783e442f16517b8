(** Properties C26, C27 and C45: labelled arguments. *)
From Coq Require Import Bool List Arith Lia Permutation String.
From Verif Require Import Text Fields FieldsSpec FieldsProofs FieldsMoreProofs.
Import ListNotations.
Local Open Scope nat_scope.

(** Small parameter list and calls for the examples:
    [fn wibble(_, one a, two b, three c)]. *)
Definition no_location : nat * nat := (0, 0).
Definition argument (l : option string) (v : nat) : call_arg nat :=
  CallArg (option_map str l) (v, S v) v None.
Definition wibble : list (option text * (nat * nat)) :=
  [(None, (1, 2)); (Some (str "one"), (3, 4)); (Some (str "two"), (5, 6)); (Some (str "three"), (7, 8))].
Definition wibble_map : field_map := FieldMap 4 [(str "three", 3); (str "two", 2); (str "one", 1)].
Example wibble_map_is_its_field_map : field_map_of wibble = (Some wibble_map, []).
Proof. reflexivity. Qed.

(** ** Declarations *)

(** The errors of a parameter list are those of a comparison of each parameter with the
    earlier ones; there are none exactly when labels are distinct and come last. *)
Theorem C27_declaration_errors : forall params,
  declaration_errors [] params (snd (field_map_of params))
  /\ (snd (field_map_of params) = [] <-> legal_parameters (map fst params)).
Proof. intros params. split; [apply field_map_of_errors|apply field_map_of_legal]. Qed.
Print Assumptions C27_declaration_errors.
Example C27_declaration_errors_example :
  snd (field_map_of [(Some (str "a"), (1, 2)); (None, (3, 4)); (Some (str "a"), (5, 6)); (Some (str "b"), (7, 8)); (None, (9, 10))])
  = [UnlabelledAfterLabelled (3, 4); DuplicateField (5, 6) (str "a"); UnlabelledAfterLabelled (9, 10)].
Proof. reflexivity. Qed.

(** The field map of a legal parameter list records its labels and their positions, and
    there is one exactly when there is a label. *)
Theorem C26_field_map_records_the_parameters : forall params, legal_parameters (map fst params) ->
  match fst (field_map_of params) with
  | Some fm => describes fm (map fst params) /\ consistent fm /\ labels_of (map fst params) <> []
  | None => labels_of (map fst params) = []
  end.
Proof. exact field_map_of_map. Qed.
Print Assumptions C26_field_map_records_the_parameters.
Example wibble_map_is_consistent : consistent wibble_map /\ describes wibble_map (map fst wibble).
Proof.
  assert (L : legal_parameters (map fst wibble)).
  { apply (proj1 (field_map_of_legal wibble)). reflexivity. }
  pose proof (C26_field_map_records_the_parameters wibble L) as H.
  rewrite wibble_map_is_its_field_map in H. cbn [fst] in H. destruct H as (H1 & H2 & _). auto.
Qed.

(** ** Calls *)

(** When reordering succeeds the arguments are arranged by the parameters, and there is
    only one such arrangement. *)
Theorem C26_reorder_arranges_the_arguments : forall A fm (args result : list (call_arg A)), consistent fm ->
  reorder fm args = Fine result -> arranged fm args result.
Proof. intros A fm args result C H. pose proof (reorder_spec fm C args) as S. rewrite H in S. apply S. Qed.
Print Assumptions C26_reorder_arranges_the_arguments.

Theorem C26_arrangement_is_unique : forall A fm (args r1 r2 : list (call_arg A)), consistent fm ->
  acceptable fm args -> arranged fm args r1 -> arranged fm args r2 -> r1 = r2.
Proof. intros A fm args r1 r2 C. now apply arranged_unique. Qed.
Print Assumptions C26_arrangement_is_unique.

Example C26_example :
  reorder wibble_map [argument None 10; argument None 20; argument (Some "three"%string) 30; argument (Some "two"%string) 40]
  = Fine [argument None 10; argument None 20; argument (Some "two"%string) 40; argument (Some "three"%string) 30].
Proof. reflexivity. Qed.

(** Exactly the acceptable calls are accepted, and none makes the compiler crash. *)
Theorem C27_accepts_exactly_the_acceptable_calls : forall A fm (args : list (call_arg A)), consistent fm ->
  ((exists result, reorder fm args = Fine result) <-> acceptable fm args) /\ reorder fm args <> Panicked.
Proof.
  intros A fm args C. split; [now apply reorder_fine|]. intros E.
  pose proof (reorder_spec fm C args) as S. now rewrite E in S.
Qed.
Print Assumptions C27_accepts_exactly_the_acceptable_calls.

(** The reason given for a rejection is true, and reasons have a fixed order: the number
    of arguments, their order, repeated labels, unknown labels. *)
Theorem C27_rejections_are_explained : forall A fm (args : list (call_arg A)) e, consistent fm ->
  reorder fm args = Failed e ->
  match e with
  | IncorrectArity m expected given =>
      List.length args <> arity fm /\ expected = arity fm /\ given = List.length args /\ m = missing_labels fm args
  | PositionalArgumentAfterLabelled loc =>
      List.length args = arity fm /\ exists a, misplaced args a /\ location a = loc
  | DuplicateArgument loc l =>
      List.length args = arity fm /\ (forall a, ~ misplaced args a)
      /\ known fm l /\ exists a b c x y, args = a ++ x :: b ++ y :: c
           /\ label x = Some l /\ label y = Some l /\ location x = loc
  | UnknownLabels valid unknown supplied =>
      List.length args = arity fm /\ (forall a, ~ misplaced args a)
      /\ (forall l, known fm l -> ~ repeated args l)
      /\ (forall l, In l valid <-> known fm l)
      /\ unknown <> []
      /\ (forall l loc, In (l, loc) unknown <-> exists a, In a args /\ label a = Some l /\ location a = loc /\ ~ known fm l)
      /\ (forall l, In l supplied <-> known fm l /\ exists a, In a args /\ label a = Some l)
  | _ => False
  end.
Proof.
  intros A fm args e C H. pose proof (reorder_spec fm C args) as S. rewrite H in S. clear H.
  destruct e as [m x g|loc|loc l|v u s| |]; auto.
  - destruct S as (H1 & H2 & H3 & H4). auto.
  - destruct S as (H1 & H2 & H3 & H4 & H5 & H6 & H7). subst v s.
    assert (PK : forall (a : call_arg A) l, label a = Some l -> (position_of fm a = None <-> ~ known fm l)).
    { intros a l L. unfold position_of, known. rewrite L. apply get_none. }
    repeat (split; auto).
    + intros l K R. apply H3. exists l. auto.
    + subst u. intros K. rewrite <- in_rev in K. unfold FieldsProofs.unknown in K. apply in_flat_map in K as (a & Ha & K).
      exists a. destruct (label a) as [k|] eqn:L; [|destruct K].
      destruct (position_of fm a) eqn:P; [destruct K|]. destruct K as [[= <- <-]|[]].
      repeat split; auto. apply (PK a k); auto.
    + intros (a & Ha & L & <- & K). subst u. rewrite <- in_rev. apply in_flat_map. exists a. split; auto.
      rewrite L. rewrite (proj2 (PK a l L)) by auto. now left.
    + apply known_labels_in in H as (a & Ha & L & P). destruct (position_of fm a) eqn:Q; [|congruence].
      destruct (position_label fm C a n Q) as (l' & L' & Hl). assert (l' = l) by congruence. subst.
      now apply (in_map fst) in Hl.
    + apply known_labels_in in H as (a & Ha & L & P). eauto.
    + intros (K & a & Ha & L). apply known_labels_in. exists a. repeat split; auto.
      intros P. apply (PK a l L) in P. auto.
Qed.
Print Assumptions C27_rejections_are_explained.

Example C27_wrong_number :
  reorder wibble_map [argument None 10; argument (Some "two"%string) 20]
  = Failed (IncorrectArity [str "one"; str "three"] 4 2).
Proof. reflexivity. Qed.
Example C27_misplaced :
  reorder wibble_map [argument (Some "one"%string) 10; argument None 20; argument (Some "two"%string) 30; argument None 40]
  = Failed (PositionalArgumentAfterLabelled (20, 21)).
Proof. reflexivity. Qed.
Example C27_repeated :
  reorder wibble_map [argument None 10; argument (Some "one"%string) 20; argument (Some "one"%string) 30; argument (Some "wobble"%string) 40]
  = Failed (DuplicateArgument (20, 21) (str "one")).
Proof. reflexivity. Qed.
Example C27_unknown :
  reorder wibble_map [argument None 10; argument (Some "one"%string) 20; argument (Some "wobble"%string) 30; argument (Some "wobble"%string) 40]
  = Failed (UnknownLabels [str "three"; str "two"; str "one"] [(str "wobble", (40, 41)); (str "wobble", (30, 31))] [str "one"]).
Proof. reflexivity. Qed.
Example C27_accepted : acceptable wibble_map
  [argument None 10; argument None 20; argument (Some "three"%string) 30; argument (Some "two"%string) 40].
Proof. apply (reorder_fine _ (proj1 wibble_map_is_consistent)). eexists. reflexivity. Qed.

(** ** Missing labels *)

(** The missing labels are those not given, in the order of the parameters, without
    those whose parameters unlabelled arguments fill. *)
Theorem C45_missing_labels_are_the_unfilled_parameters : forall A fm unlabelled labels (args : list (call_arg A)),
  consistent fm -> describes fm (repeat None unlabelled ++ map Some labels) ->
  exists filled open_, missing_labels fm args = open_
    /\ filled ++ open_ = filter (fun l => negb (existsb (text_eqb l) (explicit_labels args))) labels
    /\ List.length filled = Nat.min (List.length (filled ++ open_))
         (List.length (filter (fun a => negb (is_labelled a) && negb (is_use_implicit_callback a)) args) - unlabelled).
Proof.
  intros A fm n labels args C D. rewrite (missing_labels_spec fm C n labels D).
  set (k := _ - n). set (q := filter _ labels).
  replace (filter (fun l => negb (existsb (text_eqb l) (explicit_labels args))) labels) with q.
  2:{ unfold q. apply filter_ext. intros l. f_equal.
      destruct (contains (explicit_labels args) l) eqn:E.
      - symmetry. apply existsb_exists. exists l. split; [now apply contains_in|apply TextProofs.text_eqb_refl].
      - symmetry. apply not_true_is_false. intros H. apply existsb_exists in H as (x & Hx & Q).
        apply TextProofs.text_eqb_eq in Q. subst x. apply contains_in in Hx. congruence. }
  exists (firstn k q), (skipn k q). split; auto. rewrite firstn_skipn. split; auto.
  rewrite firstn_length. lia.
Qed.
Print Assumptions C45_missing_labels_are_the_unfilled_parameters.

(** A call that is only too short becomes acceptable when arguments with the missing
    labels are added to it. *)
Theorem C45_adding_the_missing_labels_completes_the_call :
  forall A fm unlabelled labels (args new : list (call_arg A)),
  consistent fm -> describes fm (repeat None unlabelled ++ map Some labels) -> NoDup labels ->
  (forall a, In a args -> is_use_implicit_callback a = false) ->
  (forall a, ~ misplaced args a) ->
  (forall a l, In a args -> label a = Some l -> known fm l) ->
  (forall l, ~ repeated args l) ->
  unlabelled <= List.length (filter (fun a => negb (is_labelled a)) args) ->
  List.length args <= arity fm ->
  map label new = map Some (missing_labels fm args) ->
  acceptable fm (args ++ new).
Proof. intros A fm n labels args new C D ND. now apply (missing_labels_complete fm C n labels D ND). Qed.
Print Assumptions C45_adding_the_missing_labels_completes_the_call.

Example C45_example :
  missing_labels wibble_map [argument None 10; argument None 20; argument (Some "three"%string) 30] = [str "two"]
  /\ acceptable wibble_map
       ([argument None 10; argument None 20; argument (Some "three"%string) 30] ++ [argument (Some "two"%string) 40]).
Proof.
  split; [reflexivity|]. apply (reorder_fine _ (proj1 wibble_map_is_consistent)). eexists. reflexivity.
Qed.
