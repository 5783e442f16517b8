(** C18: definitions are inferred after the definitions they use. *)
From Coq Require Import String NArith Bool List Lia Permutation.
From Verif Require Import Text CallGraph CallGraphSpec CallGraphProofs CallGraphOrder.
Import ListNotations.
Local Open Scope string_scope.
Local Open Scope list_scope.
Local Open Scope nat_scope.

(** The contract of [tarjan_scc] can be kept. *)
Theorem C18_contract_can_be_kept : exists scc, finds_components scc.
Proof. exists naive_scc. exact naive_finds_components. Qed.
Print Assumptions C18_contract_can_be_kept.

(** The full claim is the one below with [Language] in place of [Counted]; it is refuted below.
    [Counted] leaves out three kinds of uses: in the message of a [let assert], of a name that its
    pattern binds; in the alternative patterns of a clause; in a size of a bit array pattern, of a
    name bound elsewhere in the same pattern. *)
Theorem C18_used_definitions_come_first_partial scc fs cs :
  finds_components scc ->
  NoDup (map name_of (definitions fs cs)) ->
  exists groups, into_dependency_order scc fs cs = Ordered groups /\
    Permutation (concat groups) (definitions fs cs) /\
    (forall i j d d', in_group groups i d -> in_group groups j d' ->
       definition_uses Counted d (name_of d') -> j <= i).
Proof.
  intros Hc Hnd. destruct (order_spec scc Hc fs cs Hnd) as (groups & E & P & H).
  exists groups. split; [exact E|split; [exact P|]]. intros i j d d' Hi Hj Hu.
  apply (H i j d d' Hi Hj). assert (In_ds : forall k x, in_group groups k x -> In x (definitions fs cs)).
  { intros k x (g & Hg & Hx). apply (Permutation_in _ P). apply in_concat. exists g.
    split; [apply nth_error_In in Hg; exact Hg|exact Hx]. }
  split; [apply (In_ds i); exact Hi|split; [apply (In_ds j); exact Hj|exact Hu]].
Qed.
Print Assumptions C18_used_definitions_come_first_partial.

(** Definitions share a group when they use each other, and only then. *)
Theorem C18_groups_are_cycles_partial scc fs cs :
  finds_components scc ->
  NoDup (map name_of (definitions fs cs)) ->
  exists groups, into_dependency_order scc fs cs = Ordered groups /\
    (forall i j d d', in_group groups i d -> in_group groups j d' ->
       reaches (one_uses Counted (definitions fs cs)) d d' ->
       reaches (one_uses Counted (definitions fs cs)) d' d -> i = j) /\
    (forall i d d', in_group groups i d -> in_group groups i d' ->
       reaches (one_uses Possible (definitions fs cs)) d d').
Proof.
  intros Hc Hnd. destruct (order_spec scc Hc fs cs Hnd) as (groups & E & P & H).
  exists groups. split; [exact E|split].
  - intros i j d d' Hi Hj. apply (H i j d d' Hi Hj).
  - intros i d d' Hi Hj. apply (H i i d d' Hi Hj). reflexivity.
Qed.
Print Assumptions C18_groups_are_cycles_partial.

(** Two definitions of the same name are reported, with the second one's place first; nothing else
    is an error. *)
Theorem C18_duplicate_names scc fs cs :
  finds_components scc ->
  match into_dependency_order scc fs cs with
  | Ordered _ => NoDup (map name_of (definitions fs cs))
  | Duplicate e => exists before d d' after, definitions fs cs = before ++ d' :: after /\
      NoDup (map name_of before) /\ In d before /\ name_of d = name_of d' /\
      e = DuplicateName (location_of d') (location_of d) (name_of d')
  | Panic => False
  end.
Proof. intros Hc. apply duplicate_spec. exact Hc. Qed.
Print Assumptions C18_duplicate_names.

(** ** A module *)
Definition here : span := (0%N, 0%N).
Definition call (f : text) : expr := ECall (EVar f) [].
(** fn a() { b() }   fn b() { let c = 1  a() |> c }   fn c() { a() }   const d = [c] *)
Definition fn_a := Function (str "a") here [] [SExpression (call (str "b"))].
Definition fn_b := Function (str "b") here []
  [SAssignment (PVariable (str "c")) EInert None; SExpression (EPipeline [call (str "a"); EVar (str "c")])].
Definition fn_c := Function (str "c") here [] [SExpression (call (str "a"))].
Definition const_d := ModuleConstant (str "d") here (CList [CVar (str "c")] None).
Example C18_used_definitions_come_first_example :
  into_dependency_order naive_scc [fn_c; fn_a; fn_b] [const_d]
    = Ordered [[DFunction fn_a; DFunction fn_b]; [DFunction fn_c]; [DConstant const_d]] /\
  definition_uses Counted (DFunction fn_c) (str "a") /\
  ~ definition_uses Language (DFunction fn_b) (str "c").
Proof.
  split; [vm_compute; reflexivity|]. split.
  - apply (ssu _ _ [] _ []). constructor. constructor. constructor. unfold also, statements_bind.
    intros [H|(s & [] & _)]. exact H.
  - cbn [definition_uses fn_b f_body f_arguments]. intros H. inversion H as [ss s ss' n Hu E]; subst.
    destruct ss as [|s1 [|s2 ss]]; cbn in E; injection E; intros; subst.
    + inversion Hu; subst.
      * match goal with X : uses _ _ EInert _ |- _ => inversion X end.
      * match goal with X : pattern_uses _ _ _ _ _ |- _ => inversion X end.
    + inversion Hu as [e n Hu'| | | | | | |]; subst. inversion Hu' as [| | | | | |es e n Hin Hu''| | | | | | | | | | | | | |]; subst.
      destruct Hin as [<-|[<-|[]]].
      * inversion Hu''; subst; [match goal with X : uses _ _ (EVar _) _ |- _ => inversion X end|].
        match goal with X : In _ [] |- _ => destruct X end.
      * inversion Hu'' as [| | |n Hn| | | | | | | | | | | | | | | | |]; subst. apply Hn. right.
        exists (SAssignment (PVariable (str "c")) EInert None). split; [left; reflexivity|]. constructor.
    + destruct ss; discriminate.
Qed.
Example C18_groups_are_cycles_example :
  reaches (one_uses Counted (definitions [fn_a; fn_b] [])) (DFunction fn_b) (DFunction fn_a).
Proof.
  apply reaches_step with (DFunction fn_a); [|constructor].
  split; [right; left; reflexivity|split; [left; reflexivity|]].
  apply (ssu _ _ [SAssignment (PVariable (str "c")) EInert None] _ []). constructor.
  apply u_pipeline with (call (str "a")); [left; reflexivity|]. constructor. constructor.
  unfold also, statements_bind. intros [H|(s & [<-|[]] & H)]; [exact H|]. inversion H.
Qed.
Example C18_duplicate_names_example :
  into_dependency_order naive_scc [fn_a; Function (str "b") (1%N, 2%N) [] []] [ModuleConstant (str "b") (3%N, 4%N) CInert]
    = Duplicate (DuplicateName (3%N, 4%N) (1%N, 2%N) (str "b")).
Proof. vm_compute. reflexivity. Qed.

(** ** The claim with all uses is false

    fn f() { let assert g = 1 as g() }   fn g() { f() }: [f] is inferred before [g]. *)
Definition wrong_order (fs : list function) (cs : list module_constant) : Prop :=
  NoDup (map name_of (definitions fs cs)) /\
  exists scc groups i j d d', finds_components scc /\
    into_dependency_order scc fs cs = Ordered groups /\ in_group groups i d /\ in_group groups j d' /\
    definition_uses Language d (name_of d') /\ i < j.
Definition fn_f := Function (str "f") here []
  [SAssignment (PVariable (str "g")) EInert (Some (call (str "g")))].
Definition fn_g := Function (str "g") here [] [SExpression (call (str "f"))].
Theorem C18_refuted_by_assert_messages : exists fs cs, wrong_order fs cs.
Proof.
  exists [fn_f; fn_g], []. split.
  - cbn. repeat constructor; cbn; intuition congruence.
  - exists naive_scc, [[DFunction fn_f]; [DFunction fn_g]], 0, 1, (DFunction fn_f), (DFunction fn_g).
    split; [exact naive_finds_components|]. split; [vm_compute; reflexivity|].
    split; [exists [DFunction fn_f]; split; [reflexivity|left; reflexivity]|].
    split; [exists [DFunction fn_g]; split; [reflexivity|left; reflexivity]|]. split; [|lia].
    apply (ssu _ _ [] _ []). apply stu_message; [|discriminate]. constructor. constructor.
    unfold also, statements_bind. intros [H|(s & [] & _)]. exact H.
Qed.
Print Assumptions C18_refuted_by_assert_messages.

(** fn f(x) { case x { <<_>> | <<_:size(n)>> -> 1 } }   const n = 8 *)
Definition const_n := ModuleConstant (str "n") here CInert.
Definition fn_alternative := Function (str "f") here [Some (str "x")]
  [SExpression (ECase [EVar (str "x")]
     (Some [Clause [PBitArray [([], PInert)]] [[PBitArray [([SVariable (str "n")], PInert)]]] None EInert]))].
Lemma nothing_binds k sh : ~ sh (str "n") -> ~ (also (also sh (statements_bind k [])) (some_binds k (map (@snd (list size) pattern) []))) (str "n").
Proof. intros H [[X|(s & [] & _)]|(p & [] & _)]. exact (H X). Qed.
Theorem C18_refuted_by_alternatives : exists fs cs, wrong_order fs cs.
Proof.
  exists [fn_alternative], [const_n]. split.
  - cbn. repeat constructor; cbn; intuition congruence.
  - exists naive_scc, [[DFunction fn_alternative]; [DConstant const_n]], 0, 1, (DFunction fn_alternative), (DConstant const_n).
    split; [exact naive_finds_components|]. split; [vm_compute; reflexivity|].
    split; [eexists; split; [reflexivity|left; reflexivity]|].
    split; [eexists; split; [reflexivity|left; reflexivity]|]. split; [|lia].
    apply (ssu _ _ [] _ []). constructor. eapply u_clause; [left; reflexivity|].
    eapply clu_alternative; [discriminate|left; reflexivity|].
    apply (psu _ _ [] _ []). apply (pu_option _ _ _ [] []) with (SVariable (str "n")); [left; reflexivity| |discriminate].
    constructor. apply nothing_binds. cbn. intuition congruence.
Qed.
Print Assumptions C18_refuted_by_alternatives.

(** fn f(x) { let #(n, <<_:size(n)>>) = x }   const n = 8: the size is the constant. *)
Definition fn_tuple := Function (str "f") here [Some (str "x")]
  [SAssignment (PTuple [PVariable (str "n"); PBitArray [([SVariable (str "n")], PInert)]]) (EVar (str "x")) None].
Theorem C18_refuted_by_pattern_names : exists fs cs, wrong_order fs cs.
Proof.
  exists [fn_tuple], [const_n]. split.
  - cbn. repeat constructor; cbn; intuition congruence.
  - exists naive_scc, [[DFunction fn_tuple]; [DConstant const_n]], 0, 1, (DFunction fn_tuple), (DConstant const_n).
    split; [exact naive_finds_components|]. split; [vm_compute; reflexivity|].
    split; [eexists; split; [reflexivity|left; reflexivity]|].
    split; [eexists; split; [reflexivity|left; reflexivity]|]. split; [|lia].
    apply (ssu _ _ [] _ []). apply stu_pattern. apply (pu_tuple _ _ _ [PVariable (str "n")] []).
    apply (pu_option _ _ _ [] []) with (SVariable (str "n")); [left; reflexivity| |discriminate].
    constructor. apply nothing_binds. cbn. intuition congruence.
Qed.
Print Assumptions C18_refuted_by_pattern_names.
