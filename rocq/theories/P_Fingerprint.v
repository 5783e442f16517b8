(** C104, C105: changes of path dependencies. *)
From Coq Require Import Arith NArith Bool String List Lia.
From Verif Require Import Text TextProofs Resolve ResolveProofs Fingerprint FingerprintSpec FingerprintProofs.
Import ListNotations.
Local Open Scope list_scope.
Local Open Scope nat_scope.

(** Requirements are maps. *)
Definition maps (l : list event) : Prop := forall r, In (Declare r) l -> NoDup (map fst r).
(** Texts that are written have different fingerprints. *)
Definition no_collisions (fingerprint : text -> N) (l : list event) : Prop :=
  forall a b, In a (map snd (writes l)) -> In b (map snd (writes l)) -> fingerprint a = fingerprint b -> a = b.

(** ** C104 *)

(** A command that does not resolve versions has a manifest for the requirements of the project. *)
Lemma reqs_nodup fingerprint l : forall w, NoDup (map fst (declared w)) ->
  (forall mf, manifest_file w = Some mf -> NoDup (map fst (manifest_requirements mf))) -> maps l ->
  let w' := happened fingerprint l w in
  NoDup (map fst (declared w')) /\ (forall mf, manifest_file w' = Some mf -> NoDup (map fst (manifest_requirements mf))).
Proof.
  induction l as [|e l IH]; intros w D M P; [cbn; auto|]. cbn [happened fold_left]. apply IH.
  - destruct e as [p t m|r|use updates succeeds order]; auto.
    + apply (P r). now left.
    + unfold happen, resolve_versions, perform_version_resolution. destruct (manifest_file w); [|destruct succeeds; auto].
      destruct (_ && _); [|destruct succeeds; auto]. destruct (path_dependency_configs_unchanged _ _ _ _ _) as [[[|]|] fs]; auto.
      destruct succeeds; auto.
  - destruct e as [p t m|r|use updates succeeds order]; auto.
    unfold happen, resolve_versions, perform_version_resolution. cbn [tick manifest_file].
    assert (X : forall mf, Some (Manifest (declared w) (config_files w)) = Some mf -> NoDup (map fst (manifest_requirements mf))).
    { intros mf E. injection E as <-. exact D. }
    destruct (manifest_file w) as [m|] eqn:Q; [|destruct succeeds; cbn; auto; rewrite Q; auto].
    destruct (_ && _); [|destruct succeeds; cbn; auto; rewrite Q; auto].
    destruct (path_dependency_configs_unchanged _ _ _ _ _) as [[[|]|] fs]; auto.
    destruct succeeds; cbn; auto.
  - intros r I. apply P. now right.
Qed.

Lemma same_in a b : NoDup (map fst a) -> NoDup (map fst b) -> is_same_requirements a b = true -> forall n r, In (n, r) a <-> In (n, r) b.
Proof.
  intros A B E. unfold is_same_requirements in E. apply andb_true_iff in E. destruct E as [L F]. apply Nat.eqb_eq in L.
  rewrite forallb_forall in F.
  assert (I : incl a b).
  { intros [n r] J. specialize (F _ J). cbn in F. destruct (get n b) as [q|] eqn:G; [|discriminate].
    apply get_in in G. assert (r = q); [|subst; auto].
    destruct r, q; cbn in F; try discriminate; apply text_eqb_eq in F; now subst. }
  assert (N : NoDup a) by (eapply NoDup_map_inv; eauto).
  intros n r. split; [apply I|]. apply (NoDup_length_incl N); [lia|auto].
Qed.

Theorem C104_the_manifest_is_for_what_is_declared : forall fingerprint events use updates succeeds order w',
  maps events ->
  let w := happened fingerprint events start in
  resolve_versions fingerprint use updates succeeds order w = (w', Kept) ->
  use = true /\ updates = false
  /\ exists mf, manifest_file w = Some mf /\ forall n r, In (n, r) (manifest_requirements mf) <-> In (n, r) (declared w).
Proof.
  intros fingerprint events use updates succeeds order w' P w E.
  destruct (reqs_nodup fingerprint events start) as [D M]; auto; [constructor|discriminate|].
  fold w in D, M. unfold resolve_versions in E. destruct (manifest_file w) as [mf|] eqn:Q.
  - destruct (use && negb updates && is_same_requirements (manifest_requirements mf) (declared w)) eqn:C.
    + apply andb_true_iff in C. destruct C as [C S]. apply andb_true_iff in C. destruct C as [U V]. apply negb_true_iff in V.
      split; auto. split; auto. exists mf. split; auto. apply same_in; auto.
    + unfold perform_version_resolution in E. destruct succeeds; discriminate.
  - unfold perform_version_resolution in E. destruct succeeds; discriminate.
Qed.
Print Assumptions C104_the_manifest_is_for_what_is_declared.

(** And gleam.toml of each path dependency is what versions were resolved with. *)
Definition changes_are_noticed (condition : list event -> Prop) : Prop :=
  forall fingerprint events use updates succeeds order w',
    maps events -> no_collisions fingerprint events -> condition events ->
    let w := happened fingerprint events start in
    order_of (declared w) order ->
    resolve_versions fingerprint use updates succeeds order w = (w', Kept) ->
    exists mf, manifest_file w = Some mf /\
      forall n p, In (n, Path p) (declared w) -> exists t, has_text (config_files w) p t /\ has_text (resolved_with mf) p t.

Theorem C104_changes_are_noticed_partial :
  changes_are_noticed (fun l => timely 0 l /\ all_succeed l /\ always_new l).
Proof.
  intros fingerprint events use updates succeeds order w' P NC (T & S & N) w O E.
  destruct (good_happened fingerprint events [] start) as (log & G & X); auto.
  { apply good_start. }
  fold w in G. edestruct (good_kept fingerprint log w) as (mf & M & _ & _ & _ & K); [exact G| |exact E|].
  - intros a b A B. apply NC; [apply X in A; destruct A as [[]|A]; auto|apply X in B; destruct B as [[]|B]; auto].
  - exists mf. split; auto. intros n p I. apply O in I. destruct (K n p I) as (t & m & A & B). exists t. split; exists m; auto.
Qed.
Print Assumptions C104_changes_are_noticed_partial.

(** Not so when resolution failed in between, when a text is written again after another dependency was noticed
    to be changed, or when files are written with a time of long ago. *)
Definition dep := str "dep". Definition other := str "other". Definition dir := str "../dep". Definition elsewhere := str "../other".
Definition first_letter (t : text) : N := hd 0%N t.
Definition one := [(dep, Path dir)].
Definition two := [(dep, Path dir); (other, Path elsewhere)].
Definition run l := Run true false true l.

(** Resolved with [a], and noticed [b] when resolution failed. *)
Definition failing := [Write dir (str "a") 0; Declare one; run one; run one; Write dir (str "b") 4; Run true false false one].
(** Both are changed, [other] is changed back. *)
Definition returning :=
  [Write dir (str "a") 0; Write elsewhere (str "b") 1; Declare two; run two; run two; run two;
   Write dir (str "c") 6; Write elsewhere (str "d") 7; run two; Write elsewhere (str "b") 9].
(** The file is replaced by one that is older. *)
Definition older := [Write dir (str "a") 0; Declare one; run one; run one; Write dir (str "b") 1].

Ltac distinct := repeat constructor; cbn; intuition discriminate.
Ltac succeeding := intros u up s o I; unfold returning, older, run in I; cbn [In] in I;
  repeat (destruct I as [I|I]; [try discriminate I; try (injection I; auto)|]); try contradiction.
Lemma maps_of l : forallb (fun e => match e with Declare r =>
    forallb (fun '(n, _) => Nat.eqb (length (filter (fun x => text_eqb n (fst x)) r)) 1) r | _ => true end) l = true -> maps l.
Proof.
  intros F r I. rewrite forallb_forall in F. specialize (F _ I). cbn in F. rewrite forallb_forall in F.
  assert (G : forall n q, In (n, q) r -> length (filter (fun x => text_eqb n (fst x)) r) <= 1).
  { intros n q J. specialize (F _ J). cbn in F. apply Nat.eqb_eq in F. lia. }
  clear F I. induction r as [|[n q] r IH]; [constructor|]. cbn. constructor.
  - intros J. apply in_map_iff in J. destruct J as ([n' q'] & E & J). cbn in E. subst n'.
    specialize (G n q (or_introl eq_refl)). cbn in G. rewrite text_eqb_refl in G. cbn in G.
    assert (K : In (n, q') (filter (fun x => text_eqb n (fst x)) r)) by (apply filter_In; split; auto; apply text_eqb_refl).
    destruct (filter (fun x => text_eqb n (fst x)) r); [destruct K|cbn in G; lia].
  - apply IH. intros m p J. specialize (G m p (or_intror J)). cbn in G. destruct (text_eqb m n); cbn in G; lia.
Qed.

Theorem C104_changes_are_noticed_refuted :
  ~ changes_are_noticed (fun l => timely 0 l /\ always_new l)
  /\ ~ changes_are_noticed (fun l => timely 0 l /\ all_succeed l)
  /\ ~ changes_are_noticed (fun l => all_succeed l /\ always_new l).
Proof.
  split; [|split]; intros H.
  - destruct (H first_letter failing true false true one (fst (resolve_versions first_letter true false true one (happened first_letter failing start))))
      as (mf & M & K).
    + apply maps_of. reflexivity.
    + intros a b A B. cbn in A, B. intuition (subst; cbn in *; congruence).
    + split; [cbn; auto 10|]. distinct.
    + split; [distinct|]. cbn. tauto.
    + reflexivity.
    + cbn in M. injection M as <-. destruct (K dep dir) as (t & (m & A) & (m' & B)); [now left|]. cbn in A, B. congruence.
  - destruct (H first_letter returning true false true two (fst (resolve_versions first_letter true false true two (happened first_letter returning start))))
      as (mf & M & K).
    + apply maps_of. reflexivity.
    + intros a b A B. cbn in A, B. intuition (subst; cbn in *; congruence).
    + split; [cbn; auto 20|]. succeeding.
    + split; [distinct|]. cbn. tauto.
    + reflexivity.
    + cbn in M. injection M as <-. destruct (K other elsewhere) as (t & (m & A) & (m' & B)); [right; now left|]. cbn in A, B. congruence.
  - destruct (H first_letter older true false true one (fst (resolve_versions first_letter true false true one (happened first_letter older start))))
      as (mf & M & K).
    + apply maps_of. reflexivity.
    + intros a b A B. cbn in A, B. intuition (subst; cbn in *; congruence).
    + split; [|distinct]. succeeding.
    + split; [distinct|]. cbn. tauto.
    + reflexivity.
    + cbn in M. injection M as <-. destruct (K dep dir) as (t & (m & A) & (m' & B)); [now left|]. cbn in A, B. congruence.
Qed.
Print Assumptions C104_changes_are_noticed_refuted.

(** A change that is noticed. *)
Example a_change_is_noticed :
  let w := happened first_letter [Write dir (str "a") 0; Declare one; run one; run one] start in
  snd (resolve_versions first_letter true false true one w) = Kept
  /\ snd (resolve_versions first_letter true false true one (happen first_letter w (Write dir (str "b") 4))) = Resolved.
Proof. split; reflexivity. Qed.

(** ** C105 *)

(** When nothing is written any more, then after as many commands as there are path dependencies, and one, no
    command resolves versions. *)
Definition path_dependencies (l : requirements) : list text :=
  flat_map (fun '(n, r) => match r with Path _ => [n] | Other _ => [] end) l.

Theorem C105_commands_come_to_rest : forall fingerprint w orders order,
  NoDup (map fst (declared w)) ->
  (forall n p, In (n, Path p) (declared w) -> exists t m, get p (config_files w) = Some (t, m) /\ m <= now w) ->
  (forall o, In o (order :: orders) -> order_of (declared w) o) ->
  length (path_dependencies (declared w)) < length orders ->
  let w' := happened fingerprint (map (Run true false true) orders) w in
  snd (resolve_versions fingerprint true false true order w') = Kept
  /\ config_files w' = config_files w /\ declared w' = declared w.
Proof.
  intros fingerprint w orders order D F O L w'.
  assert (R : ready (declared w) w) by (split; auto).
  assert (O' : forall o, In o (order :: orders) -> forall n p, In (n, Path p) o <-> In (n, Path p) (declared w)).
  { intros o I n p. apply (O o I). }
  destruct orders as [|o orders]; [cbn in L; lia|].
  assert (W : w' = fold_left (fun w o => happen fingerprint w (Run true false true o)) orders
                     (happen fingerprint w (Run true false true o))).
  { unfold w', happened. cbn [map fold_left]. generalize (happen fingerprint w (Run true false true o)).
    clear. induction orders as [|x l IH]; intros w; cbn; auto. }
  destruct (run_same fingerprint (declared w) w o D R (O' o (or_intror (or_introl eq_refl)))) as [R1 M1].
  destruct (all_fine fingerprint (declared w) orders (happen fingerprint w (Run true false true o)) (length (path_dependencies (declared w))))
    as (R2 & M2 & A); auto.
  { intros o' I. apply O'. right. now right. }
  { cbn [Datatypes.length] in L. apply Nat.lt_succ_r. exact L. }
  { exists (path_dependencies (declared w)). split; auto. intros n p I. left. apply in_flat_map. exists (n, Path p). split; auto. now left. }
  rewrite <- W in R2, M2, A. split; [|split].
  - eapply kept_fine; eauto. apply O'. now left.
  - unfold w'. clear. generalize (o :: orders). intros l. revert w. induction l as [|x l IH]; intros w; cbn [map happened fold_left]; auto.
    unfold happened in IH. rewrite IH. unfold happen, resolve_versions, perform_version_resolution. destruct (manifest_file w); auto.
    destruct (_ && _); auto. destruct (path_dependency_configs_unchanged _ _ _ _ _) as [[[|]|] fs]; auto.
  - apply (ready_declared _ _ R2).
Qed.
Print Assumptions C105_commands_come_to_rest.

(** As many are needed: the fingerprint of one dependency is written by each. *)
Example commands_come_to_rest :
  let w := happened first_letter [Write dir (str "a") 0; Write elsewhere (str "b") 1; Declare two] start in
  let after l := snd (resolve_versions first_letter true false true two (happened first_letter l w)) in
  (after [], after [run two], after [run two; run two], after [run two; run two; run two]) = (Resolved, Resolved, Resolved, Kept).
Proof. reflexivity. Qed.
