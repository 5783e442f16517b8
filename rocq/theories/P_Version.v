(** Properties C12, C13 and C14: Hex versions and requirements. *)
From Coq Require Import NArith Bool String List Lia.
From Verif Require Import Text TextProofs Version VersionSpec VersionProofs VersionRangeProofs.
Import ListNotations.
Open Scope N_scope.

(** C12: the comparison is semantic versioning's precedence ... *)
Theorem C12_order_is_semver_precedence : forall v w,
  (cmp v w = Lt <-> precedes v w) /\ (cmp v w = Gt <-> precedes w v)
  /\ (cmp v w = Eq <-> same_precedence v w).
Proof. intros v w. split; [apply cmp_lt|]. split; [apply cmp_gt|apply cmp_eq]. Qed.
Print Assumptions C12_order_is_semver_precedence.

(** ... which is a total preorder: irreflexive, transitive, total, and versions it
    does not separate differ in build metadata only and are interchangeable. *)
Theorem C12_precedence_is_a_total_preorder :
  (forall v, ~ precedes v v)
  /\ (forall u v w, precedes u v -> precedes v w -> precedes u w)
  /\ (forall v w, precedes v w \/ same_precedence v w \/ precedes w v)
  /\ (forall u v w, same_precedence u v -> (precedes u w <-> precedes v w) /\ (precedes w u <-> precedes w v)).
Proof.
  split; [exact precedes_irrefl|]. split; [exact precedes_trans|]. split; [exact precedes_total|].
  intros u v w H. split; [now apply same_precedence_precedes_l|now apply same_precedence_precedes_r].
Qed.
Print Assumptions C12_precedence_is_a_total_preorder.

Theorem C12_comparing_the_other_way_round : forall v w, cmp w v = CompOpp (cmp v w).
Proof. exact cmp_opp. Qed.
Print Assumptions C12_comparing_the_other_way_round.

(** semver.org's own chain. *)
Example C12_example :
  let v s := match parse (str s) with Ok v => v | Err _ => lowest end in
  map (fun p => cmp (v (fst p)) (v (snd p)))
    [("1.0.0-alpha", "1.0.0-alpha.1"); ("1.0.0-alpha.1", "1.0.0-alpha.beta");
     ("1.0.0-alpha.beta", "1.0.0-beta"); ("1.0.0-beta", "1.0.0-beta.2");
     ("1.0.0-beta.2", "1.0.0-beta.11"); ("1.0.0-beta.11", "1.0.0-rc.1");
     ("1.0.0-rc.1", "1.0.0"); ("1.9.0", "1.10.0"); ("1.0.0+a", "1.0.0+b")]%string
  = [Lt; Lt; Lt; Lt; Lt; Lt; Lt; Lt; Eq].
Proof. reflexivity. Qed.

(** C13: exactly which texts are accepted, and as what. *)
Theorem C13_accepted_texts : forall s v, parse s = Ok v <->
  exists w1 w2, s = (w1 ++ show v ++ w2)%list /\ blank w1 /\ blank w2 /\ legal_version v
    /\ (build v <> None -> w2 = []).
Proof.
  intros s v. split; [apply parse_sound|].
  intros (w1 & w2 & -> & B1 & B2 & L & Q). now apply parse_complete.
Qed.
Print Assumptions C13_accepted_texts.

(** Hence printing a parsed version and parsing it again gives the same version. *)
Theorem C13_print_parse_identity : forall s v, parse s = Ok v -> parse (show v) = Ok v.
Proof.
  intros s v H. apply parse_sound in H as (w1 & w2 & _ & _ & _ & L & _).
  rewrite <- (app_nil_l (show v)), <- (app_nil_r (show v)). apply parse_complete; auto; constructor.
Qed.
Print Assumptions C13_print_parse_identity.

Theorem C13_parsing_terminates : forall s, parse s <> Err OutOfFuel.
Proof. exact parse_terminates. Qed.
Print Assumptions C13_parsing_terminates.

(** Legal semantic versions that the code rejects: an identifier beginning with a
    keyword of requirements, and a hyphen in build metadata. *)
Theorem C13_semver_accepted_refuted :
  parse (str "1.0.0-order") = Err (UnexpectedToken TOr)
  /\ parse (str "1.0.0-android.1") = Err (UnexpectedToken TAnd)
  /\ parse (str "1.0.0+2024-01-01") = Err (UnexpectedToken THyphen).
Proof. repeat split; reflexivity. Qed.
Print Assumptions C13_semver_accepted_refuted.

Example C13_example : exists v, parse (str " 10.2.3-rc-1.a.0+b.01") = Ok v
  /\ show v = str "10.2.3-rc-1.a.0+b.01".
Proof. eexists. split; reflexivity. Qed.

(** C14: whatever the layout, a requirement is accepted and a version is in the
    range iff it satisfies the requirement -- except, for [>], [<=] and [!=], for
    versions strictly between the one written and the next patch release. *)
Theorem C14_requirements_mean_what_they_say_partial : forall req s x,
  all_clauses ordinary req -> requirement_text req s -> all_clauses (not_in_between x) req ->
  exists r, parse_range s = Ok r /\ (contains r x = true <-> satisfies x req).
Proof. exact requirement_meaning. Qed.
Print Assumptions C14_requirements_mean_what_they_say_partial.

(** The exception never concerns releases. *)
Theorem C14_releases_are_never_in_between : forall x c,
  pre x = [] -> pre (clause_version c) = [] -> not_in_between x c.
Proof. exact releases_not_in_between. Qed.
Print Assumptions C14_releases_are_never_in_between.

(** The exception is real: [> 1.0.0-rc1] excludes 1.0.0 and [> 1.0.0] excludes
    1.0.1-rc1; [<= 1.0.0-rc1] includes 1.0.0; [!= 1.0.0] excludes 1.0.1-rc1. *)
Theorem C14_prerelease_requirements_refuted :
  let v s := match parse (str s) with Ok v => v | Err _ => lowest end in
  let allows r s := match parse_range (str r) with Ok r => contains r (v s) | Err _ => false end in
  (precedes (v "1.0.0-rc1") (v "1.0.0") /\ allows "> 1.0.0-rc1" "1.0.0" = false)%string
  /\ (precedes (v "1.0.0") (v "1.0.1-rc1") /\ allows "> 1.0.0" "1.0.1-rc1" = false)%string
  /\ (precedes (v "1.0.0-rc1") (v "1.0.0") /\ allows "<= 1.0.0-rc1" "1.0.0" = true)%string
  /\ (~ same_precedence (v "1.0.1-rc1") (v "1.0.0") /\ allows "!= 1.0.0" "1.0.1-rc1" = false)%string.
Proof.
  cbv zeta. repeat split; try (apply cmp_lt; reflexivity).
  rewrite <- cmp_eq. discriminate.
Qed.
Print Assumptions C14_prerelease_requirements_refuted.

(** At the largest number the successor wraps round (an overflow panic in a debug
    build): nothing satisfies [~> 1.4294967295.0]. *)
Theorem C14_overflow_refuted :
  exists r v, parse_range (str "~> 1.4294967295.0") = Ok r /\ parse (str "1.4294967295.0") = Ok v
    /\ satisfies_clause v (Tilde v) /\ forall x, contains r x = false.
Proof.
  eexists _, _. split; [reflexivity|]. split; [reflexivity|]. split.
  - split; [apply precedes_irrefl|apply by_minor; reflexivity].
  - intros x. apply Bool.not_true_iff_false. cbn [contains]. rewrite andb_true_iff, le_spec, lt_spec.
    intros [H1 H2]. apply H1. eapply precedes_trans; [exact H2|]. apply by_minor; reflexivity.
Qed.
Print Assumptions C14_overflow_refuted.

Theorem C14_parsing_terminates : forall s, parse_range s <> Err OutOfFuel.
Proof. exact parse_range_terminates. Qed.
Print Assumptions C14_parsing_terminates.

Example C14_example :
  let v a b c := Version a b c [] None in
  let req := [[Compare OpGtEq (v 1 2 0); Compare OpLt (v 2 0 0)]; [TildeMinor (v 3 1 0)]] in
  all_clauses ordinary req
  /\ requirement_text req (str ">= 1.2.0 and <2.0.0 or ~> 3.1")
  /\ all_clauses (not_in_between (v 3 5 0)) req
  /\ satisfies (v 3 5 0) req /\ ~ satisfies (v 2 0 0) req.
Proof.
  cbv zeta.
  split; [|split; [|split; [|split]]].
  - repeat constructor; simpl; try lia; reflexivity.
  - exists [], (str ">= 1.2.0 and <2.0.0 or ~> 3.1"), []. repeat split; try constructor.
    apply (any_more _ _ (str ">= 1.2.0 and <2.0.0") (str " ") (str " ") (str "~> 3.1"));
      try (repeat constructor; fail); try discriminate.
    + apply (all_more _ _ (str ">= 1.2.0") (str " ") (str " ") (str "<2.0.0"));
        try (repeat constructor; fail); try discriminate.
      * apply (operator_version OpGtEq (str " ")). repeat constructor.
      * apply all_one. apply (operator_version OpLt []). constructor.
    + apply any_one, all_one. apply (tilde_minor (str " ")); [repeat constructor|reflexivity].
  - repeat constructor.
  - right. left. constructor; [|constructor]. simpl. split.
    + intros H. inversion H; simpl in *; try lia; try congruence.
    + apply by_major. simpl. lia.
  - intros H. inversion H as [? ? Ha|? ? Hb]; subst.
    + inversion Ha as [|? ? _ Hc]; subst. inversion Hc as [|? ? Hd _]; subst. simpl in Hd.
      now apply precedes_irrefl in Hd.
    + inversion Hb as [? ? Ha|? ? Hx]; subst; [|inversion Hx].
      inversion Ha as [|? ? Hc _]; subst. destruct Hc as [Hc _]. apply Hc. apply by_major. simpl. lia.
Qed.
