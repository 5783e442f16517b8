From Coq Require Import NArith ZArith Bool String List Lia Arith.
From Verif Require Import Text TextProofs Version VersionSpec VersionProofs.
Import ListNotations.
Open Scope N_scope.
Local Arguments N.eqb : simpl never.

(** ** The loops end before their fuel *)
Definition left (p : parser) : nat := (length (input p) + match c1 p with None => 0 | Some _ => 1 end)%nat.

Lemma lex_next_shorter s t r : lex_next s = Some (Tok t, r) -> (length r < length s)%nat.
Proof.
  intros H. apply lex_inversion in H as (-> & L & _). rewrite app_length.
  pose proof (token_text_nonempty t L). destruct (token_text t); [congruence|]. simpl. lia.
Qed.
Lemma advance_left s : match advance s with Ok q => (left q <= length s)%nat | Err e => e <> OutOfFuel end.
Proof.
  unfold advance. destruct (lex_next s) as [[[t|c] r]|] eqn:E; try discriminate.
  - apply lex_next_shorter in E. unfold left. simpl. lia.
  - unfold left. simpl. lia.
Qed.
Lemma pop_left p : match pop p with Ok (_, q) => (left q < left p)%nat | Err e => e <> OutOfFuel end.
Proof.
  unfold pop. pose proof (advance_left (input p)). destruct (advance (input p)) as [q|e]; cbn [bind]; auto.
  destruct (c1 p) eqn:C; [|discriminate]. unfold left at 2. rewrite C. lia.
Qed.

(** A parsing function that does not run out of fuel and consumes at least [n]. *)
Definition fine {A} (n : nat) (p : parser) (r : result (A * parser)) : Prop :=
  match r with Ok (_, q) => (left q + n <= left p)%nat | Err e => e <> OutOfFuel end.
Definition fine_ (n : nat) (p : parser) (r : result parser) : Prop :=
  match r with Ok q => (left q + n <= left p)%nat | Err e => e <> OutOfFuel end.

Lemma pop_fine p : fine 1 p (pop p).
Proof. unfold fine. pose proof (pop_left p). destruct (pop p) as [[]|]; auto. lia. Qed.
Lemma fine_bind {A B} n m k p (r : result (A * parser)) (f : A * parser -> result (B * parser)) :
  fine n p r -> (forall a q, r = Ok (a, q) -> (left q + n <= left p)%nat -> fine m q (f (a, q))) -> (k <= n + m)%nat ->
  fine k p (bind r f).
Proof.
  unfold fine. intros H F L. destruct r as [[a q]|e]; cbn [bind]; auto.
  specialize (F a q eq_refl H). destruct (f (a, q)) as [[]|]; auto. lia.
Qed.
Lemma fine_bind_ {B} n m k p (r : result parser) (f : parser -> result (B * parser)) :
  fine_ n p r -> (forall q, r = Ok q -> (left q + n <= left p)%nat -> fine m q (f q)) -> (k <= n + m)%nat ->
  fine k p (bind r f).
Proof.
  unfold fine, fine_. intros H F L. destruct r as [q|e]; cbn [bind]; auto.
  specialize (F q eq_refl H). destruct (f q) as [[]|]; auto. lia.
Qed.
Lemma fine_ok {A} p (a : A) : fine 0 p (Ok (a, p)).
Proof. simpl. lia. Qed.
Lemma skip_fine p : fine_ 0 p (skip_whitespace p).
Proof.
  unfold skip_whitespace. assert (fine_ 0 p (Ok p)) by (simpl; lia).
  destruct (c1 p) as [t|]; auto. destruct t; auto. pose proof (pop_fine p).
  destruct (pop p) as [[]|]; simpl in *; auto. lia.
Qed.
Lemma expect_fine p : fine_ 1 p (expect_whitespace p).
Proof.
  unfold expect_whitespace. pose proof (pop_fine p). destruct (pop p) as [[t q]|]; simpl in *; auto.
  destruct t; simpl; auto; discriminate.
Qed.
Lemma numeric_fine p : fine 1 p (numeric p).
Proof.
  unfold numeric. apply (fine_bind 1 0 1 p _ _ (pop_fine p)); [|lia].
  intros t q _ _. destruct t; try (simpl; discriminate). apply fine_ok.
Qed.
Lemma dot_fine p : fine_ 1 p (dot p).
Proof.
  unfold dot. pose proof (pop_fine p). destruct (pop p) as [[t q]|]; simpl in *; auto.
  destruct t; simpl; auto; discriminate.
Qed.
Lemma dot_numeric_fine p : fine 2 p (dot_numeric p).
Proof. unfold dot_numeric. apply (fine_bind_ 1 1 2 p _ _ (dot_fine p)); [|lia]. intros. apply numeric_fine. Qed.
Lemma map_err_fine {A} n p e (r : result (A * parser)) : e <> OutOfFuel -> fine n p r -> fine n p (map_err e r).
Proof. unfold fine. destruct r; simpl; auto. Qed.

Lemma identifier_fine f : forall p, (left p < f)%nat -> fine 1 p (identifier_ f p).
Proof.
  induction f as [|f IH]; intros p L; [lia|]. cbn [identifier_].
  apply (fine_bind 1 0 1 p _ _ (pop_fine p)); [|lia]. intros t q _ Lq.
  assert (K : forall id, fine 0 q (match c1 q with
      | Some THyphen => let* (_, p) := pop q in let* (id', p) := identifier_ f p in
          Ok (concat (concat id (str "-")) (show_identifier id'), p)
      | _ => Ok (id, q) end)).
  { intros id. pose proof (fine_ok q id). destruct (c1 q) as [u|]; auto. destruct u; auto.
    apply (fine_bind 1 0 0 q _ _ (pop_fine q)); [|lia]. intros u q' _ Lq'.
    assert (F : fine 1 q' (identifier_ f q')) by (apply IH; lia).
    apply (fine_bind 1 0 0 q' _ _ F); [|lia]. intros. apply fine_ok. }
  destruct t; simpl; try discriminate; apply K.
Qed.
Lemma more_fine f : forall p, (left p < f)%nat -> fine 0 p (more_parts f p).
Proof.
  induction f as [|f IH]; intros p L; [lia|]. cbn [more_parts].
  pose proof (fine_ok p (@nil identifier)). destruct (c1 p) as [u|]; auto. destruct u; auto.
  apply (fine_bind 1 0 0 p _ _ (pop_fine p)); [|lia]. intros u q _ Lq.
  apply (fine_bind 1 0 0 q _ _ (identifier_fine f q ltac:(lia))); [|lia]. intros i q' _ Lq'.
  apply (fine_bind 0 0 0 q' _ _ (IH q' ltac:(lia))); [|lia]. intros. apply fine_ok.
Qed.
Lemma pre_fine f p : (left p < f)%nat -> fine 0 p (pre_ f p).
Proof.
  intros L. unfold pre_. pose proof (fine_ok p (@nil identifier)). destruct (c1 p) as [u|]; auto. destruct u; auto.
  apply (fine_bind 1 0 0 p _ _ (pop_fine p)); [|lia]. intros u q _ Lq. unfold parts.
  apply (fine_bind 1 0 0 q _ _ (identifier_fine f q ltac:(lia))); [|lia]. intros i q' _ Lq'.
  apply (fine_bind 0 0 0 q' _ _ (more_fine f q' ltac:(lia))); [|lia]. intros. apply fine_ok.
Qed.
Lemma build_loop_fine f : forall b p, (left p < f)%nat -> fine 0 p (build_loop f b p).
Proof.
  induction f as [|f IH]; intros b p L; [lia|]. cbn [build_loop].
  destruct (c1 p) as [u|] eqn:C.
  - apply (fine_bind 1 0 0 p _ _ (pop_fine p)); [|lia]. intros t q _ Lq.
    destruct t; try (simpl; discriminate); apply IH; lia.
  - pose proof (advance_left (input p)). destruct (advance (input p)); simpl; auto.
    unfold left at 2. rewrite C. lia.
Qed.
Lemma plus_fine f p : (left p < f)%nat -> fine 0 p (plus_build_metadata f p).
Proof.
  intros L. unfold plus_build_metadata. pose proof (fine_ok p (@None text)).
  destruct (c1 p) as [u|]; auto. destruct u; auto.
  apply (fine_bind 1 0 0 p _ _ (pop_fine p)); [|lia]. intros u q _ Lq.
  apply (fine_bind 0 0 0 q _ _ (build_loop_fine f [] q ltac:(lia))); [|lia]. intros b q' _ Lq'.
  destruct b; [simpl; discriminate|apply fine_ok].
Qed.
Lemma version_fine f p : (left p < f)%nat -> fine 5 p (version_ f p).
Proof.
  intros L. unfold version_.
  apply (fine_bind_ 0 5 5 p _ _ (skip_fine p)); [|lia]. intros p1 _ L1.
  apply (fine_bind 1 4 5 p1 _ _ (numeric_fine p1)); [|lia]. intros ma p2 _ L2.
  eapply (fine_bind 2 2 4); [apply map_err_fine; [discriminate|apply dot_numeric_fine]| |lia]. intros mi p3 _ L3.
  eapply (fine_bind 2 0 2); [apply map_err_fine; [discriminate|apply dot_numeric_fine]| |lia]. intros pa p4 _ L4.
  eapply (fine_bind 0 0 0); [apply pre_fine; lia| |lia]. intros pr p5 _ L5.
  eapply (fine_bind 0 0 0); [apply plus_fine; lia| |lia]. intros bu p6 _ L6.
  eapply (fine_bind_ 0 0 0); [apply skip_fine| |lia]. intros p7 _ L7. apply fine_ok.
Qed.
Lemma tail_fine f : forall s, (length s < f)%nat -> tail_ok f s <> Some OutOfFuel.
Proof.
  induction f as [|f IH]; intros s L; [lia|]. cbn [tail_ok].
  destruct (lex_next s) as [[[t|c] r]|] eqn:E; try discriminate.
  apply IH. apply lex_next_shorter in E. lia.
Qed.
Lemma finish_fine {A} f (a : A) p : (left p < f)%nat -> finish f a p <> Err OutOfFuel.
Proof.
  intros L. unfold finish. destruct (is_eof p); [discriminate|].
  assert (T : tail_ok f (input p) <> Some OutOfFuel) by (apply tail_fine; unfold left in L; lia).
  destruct (tail_ok f (input p)); congruence.
Qed.
Theorem parse_terminates s : parse s <> Err OutOfFuel.
Proof.
  unfold parse, parser_new. pose proof (advance_left s) as A. destruct (advance s) as [p|e]; cbn [bind]; [|congruence].
  pose proof (version_fine (fuel_for s) p) as V. unfold fuel_for in *.
  destruct (version_ (length s + 8) p) as [[v q]|e]; cbn [bind].
  - apply finish_fine. simpl in V. lia.
  - simpl in V. intros [= ->]. apply V; auto. lia.
Qed.

Lemma pessimistic_fine f p : (left p < f)%nat -> fine 1 p (pessimistic f p).
Proof.
  intros L. unfold pessimistic.
  apply (fine_bind 1 0 1 p _ _ (numeric_fine p)); [|lia]. intros ma p1 _ L1.
  eapply (fine_bind 2 0 0); [apply dot_numeric_fine| |lia]. intros mi p2 _ L2.
  assert (F : fine 0 p2 (match c1 p2 with
    | Some TDot => let* (_, p) := pop p2 in let* (n, p) := numeric p in Ok (n, true, p)
    | _ => Ok (0, false, p2) end)).
  { pose proof (fine_ok p2 (0, false)). destruct (c1 p2) as [u|]; auto. destruct u; auto.
    apply (fine_bind 1 0 0 p2 _ _ (pop_fine p2)); [|lia]. intros u q _ Lq.
    eapply (fine_bind 1 0 0); [apply numeric_fine| |lia]. intros. apply fine_ok. }
  eapply (fine_bind 0 0 0); [exact F| |lia]. intros [pa inc] p3 _ L3.
  eapply (fine_bind 0 0 0); [apply pre_fine; lia| |lia]. intros pr p4 _ L4.
  eapply (fine_bind 0 0 0); [apply plus_fine; lia| |lia]. intros bu p5 _ L5. apply fine_ok.
Qed.
Lemma constraint_fine f p : (left p < f)%nat -> fine 0 p (constraint f p).
Proof.
  intros L. unfold constraint.
  assert (W : forall g : version -> range, fine 0 p
    (let* (_, p) := pop p in let* (v, p) := version_ f p in Ok (Some (g v), p))).
  { intros g. apply (fine_bind 1 0 0 p _ _ (pop_fine p)); [|lia]. intros u q _ Lq.
    eapply (fine_bind 5 0 0); [apply version_fine; lia| |lia]. intros. apply fine_ok. }
  assert (X : fine 0 p (let* (t, p) := pop p in @Err (option range * parser) (UnexpectedToken t))).
  { apply (fine_bind 1 0 0 p _ _ (pop_fine p)); [|lia]. intros u q _ Lq. simpl. discriminate. }
  destruct (c1 p) as [u|]; [|apply fine_ok]. destruct u; auto.
  - apply (fine_bind 1 0 0 p _ _ (pop_fine p)); [|lia]. intros u q _ Lq.
    eapply (fine_bind_ 0 0 0); [apply skip_fine| |lia]. intros q1 _ Lq1.
    eapply (fine_bind 1 0 0); [apply pessimistic_fine; lia| |lia]. intros. apply fine_ok.
  - eapply (fine_bind 5 0 0); [apply version_fine; lia| |lia]. intros. apply fine_ok.
Qed.
Lemma ands_fine f : forall r p, (left p + 1 < f)%nat -> fine 0 p (ands_loop f r p).
Proof.
  induction f as [|f IH]; intros r p L; [lia|]. cbn [ands_loop].
  apply (fine_bind_ 0 0 0 p _ _ (skip_fine p)); [|lia]. intros p1 _ L1.
  eapply (fine_bind 0 0 0); [apply constraint_fine; lia| |lia]. intros c p2 _ L2.
  destruct c as [c|]; [|apply fine_ok].
  eapply (fine_bind_ 0 0 0); [apply skip_fine| |lia]. intros p3 _ L3.
  pose proof (fine_ok p3 (and_ r c)). destruct (c1 p3) as [u|]; auto. destruct u; auto.
  eapply (fine_bind 1 0 0); [apply pop_fine| |lia]. intros u p4 _ L4.
  eapply (fine_bind_ 1 0 0); [apply expect_fine| |lia]. intros p5 _ L5. apply IH. lia.
Qed.
Lemma ands_section_fine f p : (left p + 1 < f)%nat -> fine 0 p (ands_section f p).
Proof.
  intros L. unfold ands_section.
  eapply (fine_bind 0 0 0); [apply ands_fine; lia| |lia]. intros r p1 _ L1.
  eapply (fine_bind_ 0 0 0); [apply skip_fine| |lia]. intros p2 _ L2.
  destruct r; [apply fine_ok|simpl; discriminate].
Qed.
Lemma ors_fine f : forall r p, (left p + 2 < f)%nat -> fine 0 p (ors_loop f r p).
Proof.
  induction f as [|f IH]; intros r p L; [lia|]. cbn [ors_loop].
  eapply (fine_bind 0 0 0); [apply ands_section_fine; lia| |lia]. intros c p1 _ L1.
  pose proof (fine_ok p1 (match r with Some r => Union r c | None => c end)).
  destruct (c1 p1) as [u|]; auto. destruct u; auto.
  eapply (fine_bind 1 0 0); [apply pop_fine| |lia]. intros u p4 _ L4.
  eapply (fine_bind_ 1 0 0); [apply expect_fine| |lia]. intros p5 _ L5. apply IH. lia.
Qed.
Theorem parse_range_terminates s : parse_range s <> Err OutOfFuel.
Proof.
  unfold parse_range, parser_new. pose proof (advance_left s) as A. destruct (advance s) as [p|e]; cbn [bind]; [|congruence].
  assert (V : fine 0 p (range_ (fuel_for s) p)).
  { unfold range_, fuel_for. eapply (fine_bind 0 0 0); [apply ors_fine; lia| |lia]. intros r q _ Lq.
    eapply (fine_bind_ 0 0 0); [apply skip_fine| |lia]. intros q' _ Lq'. apply fine_ok. }
  destruct (range_ (fuel_for s) p) as [[v q]|e]; cbn [bind].
  - apply finish_fine. unfold fuel_for. simpl in V. lia.
  - simpl in V. congruence.
Qed.

(** ** Requirements *)

(** The range the parser builds for a clause. *)
Definition clause_range (c : clause) : range :=
  match c with
  | Compare OpEq v => Singleton v
  | Compare OpNotEq v => Union (StrictlyLowerThan v) (HigherThan (bump_patch v))
  | Compare OpGt v => HigherThan (bump_patch v)
  | Compare OpGtEq v => HigherThan v
  | Compare OpLt v => StrictlyLowerThan v
  | Compare OpLtEq v => StrictlyLowerThan (bump_patch v)
  | Tilde v => Intersection (HigherThan v) (StrictlyLowerThan (bump_minor v))
  | TildeMinor v => Intersection (HigherThan v) (StrictlyLowerThan (bump_major v))
  end.

Definition operator_token (op : operator) : token :=
  match op with
  | OpEq => TEq | OpNotEq => TNotEq | OpGt => TGt | OpGtEq => TGtEq | OpLt => TLt | OpLtEq => TLtEq
  end.

Definition plain (c : clause) : Prop := legal_version (clause_version c) /\ build (clause_version c) = None.

Lemma at_app_starts p ts us t : at_ p ((t :: ts) ++ us) -> at_ p (t :: (ts ++ us)).
Proof. exact (fun H => H). Qed.

Lemma lexed_version_after_blank w v : blank w -> legal_version v -> exists ws ts, ws_tok ws /\ core_tok ts v
  /\ lexed (w ++ show v) (ws ++ ts).
Proof.
  intros B L. destruct (blank_tokens w B) as (ws & W & _ & Lw). destruct (core_tokens v L) as (ts & T & Lv).
  exists ws, ts. split; auto. split; auto. intros r us H Lr. rewrite <- !app_assoc. apply Lw; [|now apply Lv].
  unfold show. rewrite <- !app_assoc. apply decimal_head.
Qed.

Lemma lexed_operator t s ts : lexable t -> (forall r, follows t (s ++ r)) ->
  lexed s ts -> lexed (token_text t ++ s) (t :: ts).
Proof. intros L F H r us Hr Lr. rewrite <- app_assoc. simpl. constructor; auto. Qed.

Lemma operator_follows op w v r : blank w -> follows (operator_token op) ((w ++ show v) ++ r).
Proof.
  intros B. rewrite <- app_assoc. assert (H : head_is_not (fun c => c =? 61) (w ++ show v ++ r)).
  { destruct B as [|c w Hc B]; simpl.
    - unfold show. rewrite <- !app_assoc. destruct (decimal_first (major v)) as (c & q & E & _).
      pose proof (decimal_digits (major v)) as D. rewrite E in *. simpl. inversion D; subst.
      destruct (N.eqb_spec c 61) as [->|]; [discriminate|reflexivity].
    - destruct (N.eqb_spec c 61) as [->|]; [discriminate|reflexivity]. }
  destruct op; simpl; auto.
Qed.

(** What comes after a clause: the end, or white space and then no white space. *)
Definition gap (g us : list token) : Prop :=
  ws_tok g /\ ends (g ++ us) /\ (forall s, not_start us (TWhitespace s)).

(** A clause's tokens make [constraint] return its range; [pessimistic] leaves the
    white space behind. *)
Definition clause_tokens (c : clause) (ts : list token) : Prop :=
  ts <> [] /\ (forall s, not_start ts (TWhitespace s)) /\
  forall g us f p, gap g us -> (length ts < f)%nat -> at_ p (ts ++ g ++ us) ->
  exists q g', constraint f p = Ok (Some (clause_range c), q) /\ ws_tok g' /\ at_ q (g' ++ us).

Lemma ends_not ts t : ends ts -> (forall s, t <> TWhitespace s) -> not_start ts t.
Proof. destruct ts as [|u ts]; simpl; auto. destruct u; try contradiction. intros _ H E. exact (H s (eq_sym E)). Qed.

Lemma core_tok_no_build ts v : core_tok ts v -> build v = None ->
  exists ps, pre_tok ps (pre v)
    /\ ts = ([TNumeric (major v); TDot; TNumeric (minor v); TDot; TNumeric (patch v)] ++ ps)%list.
Proof.
  destruct 1 as [a b c ps pr bs bu P B]. simpl. intros ->. inversion B; subst. exists ps. split; auto.
  now rewrite app_nil_r.
Qed.

Lemma version_clause f p v ws ts g us : core_tok ts v -> build v = None -> ws_tok ws -> gap g us ->
  (length ts < f)%nat -> at_ p (ws ++ ts ++ g ++ us) ->
  exists q, version_ f p = Ok (v, q) /\ at_ q us.
Proof.
  intros T B W (Wg & E & N) L A. eapply (version_at ws ts v g us); eauto. congruence.
Qed.

Lemma constraint_version t g f p (k : version -> range) v ws ts us :
  core_tok ts v -> build v = None -> ws_tok ws -> gap g us -> (length ts < f)%nat ->
  at_ p ((t :: ws ++ ts) ++ g ++ us) ->
  exists q g', (let* (_, p) := pop p in let* (v, p) := version_ f p in Ok (Some (k v), p)) = Ok (Some (k v), q)
    /\ ws_tok g' /\ at_ q (g' ++ us).
Proof.
  intros T B W G L A.
  assert (X : ((t :: ws ++ ts) ++ g ++ us = t :: (ws ++ ts ++ g ++ us))%list) by (simpl; now rewrite <- app_assoc).
  rewrite X in A. destruct (pop_at _ _ _ A) as (q & E & Q). rewrite E. cbn [bind].
  destruct (version_clause f q v ws ts g us) as (q' & E' & Q'); auto. rewrite E'. cbn [bind].
  exists q', []. repeat split; auto. constructor.
Qed.

Lemma clause_tokens_exist c s : plain c -> clause_text c s ->
  exists ts, clause_tokens c ts /\ lexed s ts.
Proof.
  intros [L B] T. destruct T as [v|op w v W|w v W|w v W P0]; simpl in L, B.
  - destruct (core_tokens v L) as (ts & T & Lx). exists ts. split; auto.
    destruct (core_tok_no_build _ _ T B) as (ps & P & E).
    split; [subst; discriminate|]. split; [subst; discriminate|].
    intros g us f p G Hf A.
    destruct (version_clause f p v [] ts g us) as (q & Eq & Q); auto using ws_none.
    exists q, []. split; [|split; [constructor|exact Q]].
    unfold constraint. rewrite (at_c1 _ _ A), E. simpl hd_error. cbv iota. rewrite Eq. reflexivity.
  - destruct (lexed_version_after_blank w v W L) as (ws & ts & Wt & T & Lx).
    exists (operator_token op :: ws ++ ts). split.
    + split; [discriminate|]. split; [destruct op; discriminate|].
      intros g us f p G Hf A. unfold constraint. rewrite (at_c1 _ _ A).
      simpl in Hf. rewrite app_length in Hf.
      destruct op; simpl hd_error; cbv iota;
        match type of A with
        | at_ p ((operator_token ?op :: _) ++ _) =>
            refine (constraint_version _ g f p (fun v => clause_range (Compare op v)) v ws ts us T B Wt G _ A); lia
        end.
    + replace (operator_text op) with (token_text (operator_token op)) by (destruct op; reflexivity).
      apply lexed_operator; auto; [destruct op; exact I|]. intros r. now apply operator_follows.
  - destruct (lexed_version_after_blank w v W L) as (ws & ts & Wt & T & Lx).
    exists (TPessimistic :: ws ++ ts). split.
    + split; [discriminate|]. split; [discriminate|].
      intros g us f p G Hf A. unfold constraint. rewrite (at_c1 _ _ A). simpl hd_error. cbv iota.
      destruct (core_tok_no_build _ _ T B) as (ps & P & E).
      simpl in Hf. rewrite app_length in Hf.
      assert (X : ((TPessimistic :: ws ++ ts) ++ g ++ us = TPessimistic :: (ws ++ ts ++ g ++ us))%list)
        by (simpl; now rewrite <- app_assoc).
      rewrite X in A. destruct (pop_at _ _ _ A) as (p1 & E1 & A1). rewrite E1. cbn [bind].
      destruct (skip_at _ _ _ Wt A1) as (p2 & E2 & A2); [subst; discriminate|]. rewrite E2. cbn [bind].
      subst ts. rewrite <- app_assoc in A2. cbn [app] in A2. unfold pessimistic.
      destruct (numeric_at _ _ _ A2) as (p3 & E3 & A3). rewrite E3. cbn [bind].
      destruct (dot_numeric_at _ _ _ A3) as (p4 & E4 & A4). rewrite E4. cbn [bind].
      rewrite (at_c1 _ _ A4). simpl hd_error. cbv iota.
      destruct (pop_at _ _ _ A4) as (p5 & E5 & A5). rewrite E5. cbn [bind].
      destruct (numeric_at _ _ _ A5) as (p6 & E6 & A6). rewrite E6. cbn [bind].
      destruct G as (Wg & En & Nw).
      rewrite app_length in Hf. simpl in Hf.
      destruct (pre_at ps _ P f p6 (g ++ us)) as (p7 & E7 & A7); auto; [lia| | |].
      { apply ends_not; auto; discriminate. } { apply ends_not; auto; discriminate. }
      rewrite E7. cbn [bind].
      destruct (build_at [] None build_none f p7 (g ++ us)) as (p8 & E8 & A8);
        [simpl; lia|exact A7|apply ends_not; auto; discriminate|congruence|].
      rewrite E8. cbn [bind]. exists p8, g. split; auto.
      destruct v; simpl in *. subst. reflexivity.
    + apply (lexed_operator TPessimistic); simpl; auto.
  - destruct (blank_tokens w W) as (ws & Wt & _ & Lw).
    destruct L as (L1 & L2 & L3 & L4 & L5). destruct (pre_tokens _ L4) as (ps & P & Lp).
    exists (TPessimistic :: ws ++ [TNumeric (major v); TDot; TNumeric (minor v)] ++ ps)%list. split.
    + split; [discriminate|]. split; [discriminate|].
      intros g us f p G Hf A. unfold constraint. rewrite (at_c1 _ _ A). simpl hd_error. cbv iota.
      simpl in Hf. rewrite app_length in Hf. simpl in Hf.
      assert (X : ((TPessimistic :: ws ++ [TNumeric (major v); TDot; TNumeric (minor v)] ++ ps) ++ g ++ us
        = TPessimistic :: (ws ++ [TNumeric (major v); TDot; TNumeric (minor v)] ++ ps ++ g ++ us))%list)
        by (simpl; now rewrite <- app_assoc).
      rewrite X in A. destruct (pop_at _ _ _ A) as (p1 & E1 & A1). rewrite E1. cbn [bind].
      destruct (skip_at _ _ _ Wt A1) as (p2 & E2 & A2); [discriminate|]. rewrite E2. cbn [bind].
      cbn [app] in A2. unfold pessimistic.
      destruct (numeric_at _ _ _ A2) as (p3 & E3 & A3). rewrite E3. cbn [bind].
      destruct (dot_numeric_at _ _ _ A3) as (p4 & E4 & A4). rewrite E4. cbn [bind].
      destruct G as (Wg & En & Nw).
      assert (ND : not_start (ps ++ g ++ us) TDot).
      { inversion P; subst; simpl; [|discriminate]. apply ends_not; auto; discriminate. }
      rewrite (at_c1 _ _ A4).
      assert (M : match hd_error (ps ++ g ++ us) with
        | Some TDot => let* (_, p) := pop p4 in let* (n, p) := numeric p in Ok (n, true, p)
        | _ => Ok (0, false, p4) end = Ok (0, false, p4)).
      { destruct (ps ++ g ++ us)%list as [|u vs]; simpl; auto. simpl in ND. destruct u; auto. congruence. }
      rewrite M. cbn [bind].
      destruct (pre_at ps _ P f p4 (g ++ us)) as (p7 & E7 & A7); auto; [lia| | |].
      { apply ends_not; auto; discriminate. } { apply ends_not; auto; discriminate. }
      rewrite E7. cbn [bind].
      destruct (build_at [] None build_none f p7 (g ++ us)) as (p8 & E8 & A8);
        [simpl; lia|exact A7|apply ends_not; auto; discriminate|congruence|].
      rewrite E8. cbn [bind]. exists p8, g. split; auto.
      destruct v; simpl in *. subst. reflexivity.
    + apply (lexed_operator TPessimistic); [exact I|intros; exact I|].
      assert (E : pre_text v = match pre v with [] => [] | _ => str "-" ++ show_dotted (pre v) end).
      { unfold pre_text, is_pre. destruct (pre v); reflexivity. }
      intros r us H Lr. rewrite E. rewrite <- !app_assoc. apply Lw; [apply decimal_head|].
      pose proof (Lp _ _ H Lr) as L2'.
      apply (lexed_numeric _ L1 _ (TDot :: [TNumeric (minor v)] ++ ps ++ us)); [reflexivity|].
      apply (lexes_token TDot); [exact I|exact I|].
      rewrite <- ?app_assoc. apply (lexed_numeric _ L2); auto.
      destruct (pre v); [exact H|reflexivity].
Qed.

Lemma show_head v r : head_is_not is_whitespace (show v ++ r).
Proof. unfold show. rewrite <- !app_assoc. apply decimal_head. Qed.
Lemma clause_head c s r : clause_text c s -> head_is_not is_whitespace (s ++ r).
Proof.
  destruct 1 as [v|op w v W|w v W|w v W P0]; try reflexivity; [apply show_head|].
  destruct op; reflexivity.
Qed.
Lemma all_head cs s r : all_text cs s -> head_is_not is_whitespace (s ++ r).
Proof. destruct 1; rewrite <- ?app_assoc; eapply clause_head; eauto. Qed.
Lemma any_head req s r : any_text req s -> head_is_not is_whitespace (s ++ r).
Proof. destruct 1; rewrite <- ?app_assoc; eapply all_head; eauto. Qed.

Lemma lexes_blank w r us : blank w -> w <> [] -> head_is_not is_whitespace r -> lexes r us ->
  lexes (w ++ r) (TWhitespace w :: us).
Proof. intros B N H L. apply (lexes_token (TWhitespace w)); simpl; auto. Qed.
Lemma blank_head w r : blank w -> w <> [] -> head_is_not is_alphanumeric (w ++ r).
Proof. intros B N. apply head_is_not_app; auto. now apply ws_head. Qed.

Definition member (r : option range) (x : version) : bool :=
  match r with None => true | Some r => contains r x end.

(** The tokens of a conjunction make [ands_loop] return its range. *)
Definition all_tokens (cs : list clause) (ts : list token) : Prop :=
  ts <> [] /\ (forall s, not_start ts (TWhitespace s)) /\
  forall r w g us f p, ws_tok w -> gap g us -> not_start us TAnd -> (length ts + 1 < f)%nat ->
  at_ p (w ++ ts ++ g ++ us) ->
  exists q r', ands_loop f r p = Ok (Some r', q) /\ at_ q us
    /\ forall x, contains r' x = member r x && forallb (fun c => contains (clause_range c) x) cs.

Lemma and_contains r c x : contains (match r with None => c | Some r => Intersection r c end) x
  = member r x && contains c x.
Proof. destruct r; reflexivity. Qed.

Lemma all_tokens_exist cs s : Forall plain cs -> all_text cs s -> exists ts, all_tokens cs ts /\ lexed s ts.
Proof.
  intros P T. revert P. induction T as [c s T|c cs s w1 w2 r T B1 N1 B2 N2 Tr IH]; intros P.
  - inversion P as [|? ? Pc _]; subst.
    destruct (clause_tokens_exist c s Pc T) as (ts & (NE & NW & C) & Lx). exists ts. split; auto.
    split; auto. split; auto. intros r w g us f p Ww G NA Lf A. destruct f as [|f]; [lia|]. cbn [ands_loop].
    destruct (skip_at p w (ts ++ g ++ us) Ww A) as (p1 & E1 & A1).
    { intros w'. specialize (NW w'). destruct ts; [congruence|exact NW]. }
    rewrite E1. cbn [bind].
    destruct (C g us f p1 G) as (p2 & g' & E2 & W2 & A2); auto; [lia|]. rewrite E2. cbn [bind].
    destruct (skip_at p2 g' us W2 A2) as (p3 & E3 & A3); [apply G|]. rewrite E3. cbn [bind].
    rewrite (at_c1 _ _ A3).
    exists p3, (match r with None => clause_range c | Some r => Intersection r (clause_range c) end).
    split; [|split; [exact A3|]].
    + destruct us as [|u us]; simpl; auto. destruct u; auto. simpl in NA. congruence.
    + intros x. simpl. rewrite andb_true_r. apply and_contains.
  - inversion P as [|? ? Pc Pcs]; subst. destruct (IH Pcs) as (ts & (_ & NWs & Cs) & Ls).
    destruct (clause_tokens_exist c s Pc T) as (tc & (NE & NW & C) & Lx).
    exists (tc ++ TWhitespace w1 :: TAnd :: TWhitespace w2 :: ts)%list. split.
    + split; [destruct tc; discriminate|].
      split; [intros w; specialize (NW w); destruct tc; [congruence|exact NW]|].
      intros r0 w g us f p Ww G NA Lf A. destruct f as [|f]; [lia|]. cbn [ands_loop].
      rewrite app_length in Lf. simpl in Lf.
      rewrite <- (app_assoc tc) in A. cbn [app] in A.
      destruct (skip_at p w _ Ww A) as (p1 & E1 & A1).
      { intros w'. specialize (NW w'). destruct tc; [congruence|exact NW]. }
      rewrite E1. cbn [bind].
      destruct (C [TWhitespace w1] (TAnd :: TWhitespace w2 :: ts ++ g ++ us) f p1) as (p2 & g' & E2 & W2 & A2); auto; [|lia|].
      { split; [constructor|]. split; [exact I|]. discriminate. }
      rewrite E2. cbn [bind].
      destruct (skip_at p2 g' _ W2 A2) as (p3 & E3 & A3); [discriminate|]. rewrite E3. cbn [bind].
      rewrite (at_c1 _ _ A3). simpl hd_error. cbv iota.
      destruct (pop_at _ _ _ A3) as (p4 & E4 & A4). rewrite E4. cbn [bind]. unfold expect_whitespace.
      destruct (pop_at _ _ _ A4) as (p5 & E5 & A5). rewrite E5. cbn [bind].
      destruct (Cs (and_ r0 (clause_range c)) [] g us f p5 ws_none G NA) as (q & r' & E & Q & M); auto; [lia|].
      exists q, r'. split; auto. split; auto. intros x. rewrite M. cbn [and_ member forallb].
      rewrite and_contains. now rewrite andb_assoc.
    + intros r' us Hr Lr. rewrite <- !app_assoc. cbn [app].
      apply Lx; [now apply blank_head|].
      apply lexes_blank; auto; [reflexivity|].
      apply (lexes_token TAnd); simpl; auto.
      apply lexes_blank; auto. eapply all_head; eauto.
Qed.

Definition any_tokens (req : requirement) (ts : list token) : Prop :=
  (forall s, not_start ts (TWhitespace s)) /\
  forall r w g f p, ws_tok w -> gap g [] -> (length ts + 2 < f)%nat -> at_ p (w ++ ts ++ g) ->
  exists q r', ors_loop f r p = Ok (r', q) /\ at_ q []
    /\ forall x, contains r' x = (match r with None => false | Some r => contains r x end)
         || existsb (forallb (fun c => contains (clause_range c) x)) req.

Lemma any_tokens_exist req s : Forall (Forall plain) req -> any_text req s ->
  exists ts, any_tokens req ts /\ lexed s ts.
Proof.
  intros P T. revert P. induction T as [cs s T|cs req s w1 w2 r T B1 N1 B2 N2 Tr IH]; intros P.
  - inversion P as [|? ? Pc _]; subst.
    destruct (all_tokens_exist cs s Pc T) as (ts & (NE & NW & C) & Lx). exists ts. split; auto.
    split; auto. intros r w g f p Ww G Lf A. destruct f as [|f]; [lia|]. cbn [ors_loop]. unfold ands_section.
    destruct (C None w g [] f p Ww G I) as (p1 & r' & E1 & A1 & M); [lia|now rewrite app_nil_r|].
    rewrite E1. cbn [bind].
    destruct (skip_at p1 [] [] ws_none A1) as (p2 & E2 & A2); [simpl; auto|]. rewrite E2. cbn [bind].
    rewrite (at_c1 _ _ A2). simpl hd_error. cbv iota. do 2 eexists. split; [reflexivity|]. split; auto.
    intros x. simpl existsb. rewrite orb_false_r. destruct r; simpl; now rewrite M.
  - inversion P as [|? ? Pc Pcs]; subst. destruct (IH Pcs) as (ts & [NWs Cs] & Ls).
    destruct (all_tokens_exist cs s Pc T) as (tc & (NE & NW & C) & Lx).
    exists (tc ++ TWhitespace w1 :: TOr :: TWhitespace w2 :: ts)%list. split.
    + split.
      { destruct tc as [|t tc]; [congruence|exact NW]. }
      intros r0 w g f p Ww G Lf A. destruct f as [|f]; [lia|]. cbn [ors_loop]. unfold ands_section.
      rewrite app_length in Lf. simpl in Lf.
      rewrite <- (app_assoc tc) in A. cbn [app] in A.
      destruct (C None w [TWhitespace w1] (TOr :: TWhitespace w2 :: ts ++ g) f p Ww) as (p1 & r' & E1 & A1 & M);
        [|discriminate|lia|exact A|].
      { split; [constructor|]. split; [exact I|]. discriminate. }
      rewrite E1. cbn [bind].
      destruct (skip_at p1 [] _ ws_none A1) as (p2 & E2 & A2); [discriminate|]. rewrite E2. cbn [bind].
      rewrite (at_c1 _ _ A2). simpl hd_error. cbv iota.
      destruct (pop_at _ _ _ A2) as (p4 & E4 & A4). rewrite E4. cbn [bind]. unfold expect_whitespace.
      destruct (pop_at _ _ _ A4) as (p5 & E5 & A5). rewrite E5. cbn [bind].
      edestruct (Cs (Some (match r0 with Some r => Union r r' | None => r' end)) [] g f p5 ws_none G) as (q & r'' & E & Q & M'); auto; [lia|].
      exists q, r''. split; [exact E|]. split; auto. intros x. rewrite M'. cbn [existsb].
      rewrite orb_assoc. f_equal. destruct r0; simpl; now rewrite M.
    + intros r' us Hr Lr. rewrite <- !app_assoc. cbn [app].
      apply Lx; [now apply blank_head|].
      apply lexes_blank; auto; [reflexivity|].
      apply (lexes_token TOr); simpl; auto.
      apply lexes_blank; auto. eapply any_head; eauto.
Qed.

Theorem parse_range_correct req s : all_clauses plain req -> requirement_text req s ->
  exists r, parse_range s = Ok r /\
    forall x, contains r x = existsb (forallb (fun c => contains (clause_range c) x)) req.
Proof.
  intros P (w1 & t & w2 & -> & B1 & B2 & T).
  destruct (any_tokens_exist req t P T) as (ts & [NW C] & L).
  destruct (blank_tokens w1 B1) as (t1 & T1 & X1 & L1). destruct (blank_tokens w2 B2) as (t2 & T2 & X2 & L2).
  assert (L2' : lexes w2 t2).
  { specialize (L2 [] [] I lexes_end). now rewrite !app_nil_r in L2. }
  assert (LL : lexes (w1 ++ t ++ w2) (t1 ++ ts ++ t2)).
  { apply L1; [eapply any_head; eauto|]. apply L; auto. now apply ws_head. }
  unfold parse_range, parser_new.
  destruct (advance_lexes _ _ LL) as (p & E & A). rewrite E. cbn [bind].
  pose proof (lexes_length _ _ LL) as Len. rewrite !app_length in Len.
  destruct (C None t1 t2 (fuel_for (w1 ++ t ++ w2)) p T1) as (q & r & Eq & Q & M).
  - split; auto. rewrite app_nil_r. split; [destruct T2; exact I|simpl; auto].
  - unfold fuel_for. rewrite !app_length. lia.
  - exact A.
  - unfold range_. rewrite Eq. cbn [bind].
    destruct (skip_at q [] [] ws_none Q) as (q' & E' & Q'); [simpl; auto|]. rewrite E'. cbn [bind].
    exists r. split; [|exact M]. unfold finish, is_eof. destruct Q' as [-> _]. reflexivity.
Qed.

(** ** Meaning *)
Lemma u32_succ_small n : n + 1 < 2 ^ 32 -> u32_succ n = n + 1.
Proof. intros. unfold u32_succ. now apply N.mod_small. Qed.

Lemma clause_range_meaning c x : ordinary c -> not_in_between x c ->
  (contains (clause_range c) x = true <-> satisfies_clause x c).
Proof.
  intros (L & B & M1 & M2 & M3) NB.
  assert (P3 : bump_patch (clause_version c) = next_patch (clause_version c))
    by (unfold bump_patch, next_patch; now rewrite u32_succ_small).
  assert (P2 : bump_minor (clause_version c) = next_minor (clause_version c))
    by (unfold bump_minor, next_minor; now rewrite u32_succ_small).
  assert (P1 : bump_major (clause_version c) = next_major (clause_version c))
    by (unfold bump_major, next_major; now rewrite u32_succ_small).
  assert (Up : precedes (clause_version c) (next_patch (clause_version c)))
    by (apply by_patch; simpl; auto; lia).
  destruct c as [op v|v|v]; [destruct op|..]; simpl in P1, P2, P3, Up |- *; simpl in NB.
  - apply eq_spec.
  - rewrite P3, orb_true_iff, lt_spec, le_spec. split.
    + intros [H|H] S.
      * apply (same_precedence_precedes_l x v v S) in H. now apply precedes_irrefl in H.
      * apply H. now apply (same_precedence_precedes_l x v).
    + intros S. destruct (precedes_total x v) as [H|[H|H]]; [now left|contradiction|].
      right. intros H'. apply NB. auto.
  - rewrite P3, le_spec. split.
    + intros H. destruct (precedes_total v x) as [H'|[H'|H']]; auto; exfalso; apply H.
      * now apply (same_precedence_precedes_l v x).
      * eapply precedes_trans; eauto.
    + intros H H'. apply NB. auto.
  - apply le_spec.
  - apply lt_spec.
  - rewrite P3, lt_spec. split.
    + intros H H'. apply NB. auto.
    + intros H. destruct (precedes_total x v) as [H'|[H'|H']]; [|now apply (same_precedence_precedes_l x v)|contradiction].
      eapply precedes_trans; eauto.
  - rewrite P2, andb_true_iff, le_spec, lt_spec. reflexivity.
  - rewrite P1, andb_true_iff, le_spec, lt_spec. reflexivity.
Qed.

Lemma releases_not_in_between x c : pre x = [] -> pre (clause_version c) = [] -> not_in_between x c.
Proof.
  assert (forall v, pre x = [] -> pre v = [] -> ~ (precedes v x /\ precedes x (next_patch v))).
  { intros v Px Pv [H1 H2]. inversion H1; subst; inversion H2; subst; simpl in *; try lia; try congruence. }
  destruct c as [op v|v|v]; [destruct op|..]; simpl; auto.
Qed.

Theorem requirement_meaning req s x :
  all_clauses ordinary req -> requirement_text req s -> all_clauses (not_in_between x) req ->
  exists r, parse_range s = Ok r /\ (contains r x = true <-> satisfies x req).
Proof.
  intros O T NB.
  destruct (parse_range_correct req s) as (r & E & M); auto.
  { eapply Forall_impl; [|exact O]. intros cs H. eapply Forall_impl; [|exact H]. intros c (A & B & _). now split. }
  exists r. split; auto. rewrite M. unfold satisfies. clear - O NB.
  induction O as [|cs req Oc O IH]; simpl.
  - split; [discriminate|]. inversion 1.
  - inversion NB as [|? ? Nc NB']; subst. rewrite orb_true_iff, (IH NB').
    assert (H : forallb (fun c => contains (clause_range c) x) cs = true <-> Forall (satisfies_clause x) cs).
    { clear - Oc Nc. induction Oc as [|c cs Oc _ IH]; simpl; [split; auto|].
      inversion Nc; subst. rewrite andb_true_iff, clause_range_meaning, IH by auto.
      split; [intros []; now constructor|inversion 1; auto]. }
    rewrite H. split; [intros []; [now left|now right]|inversion 1; auto].
Qed.
