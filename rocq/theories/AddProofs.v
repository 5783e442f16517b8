(** Proofs about adding packages. *)
From Coq Require Import NArith Arith Bool String List Lia ZifyBool ZifyNat ZifyN.
From Verif Require Import Text TextProofs Version VersionSpec VersionProofs VersionRangeProofs ResolveSpec ResolveProofs Locked LockedSpec LockedProofs
  LockedUnlockProofs LockedChangesProofs Fetch FetchSpec FetchProofs P_Fetch Add AddSpec.
Import ListNotations.
Local Open Scope list_scope.

(** ** Splitting *)
Lemma split_once_none c t : ~ In c t -> split_once c t = None.
Proof.
  intros N. unfold split_once. rewrite <- (app_nil_r t) at 1. rewrite span_while_app; auto.
  apply Forall_forall. intros x I. apply negb_true_iff, N.eqb_neq. intros ->. tauto.
Qed.
Lemma split_once_some c a b : ~ In c a -> split_once c (a ++ c :: b) = Some (a, b).
Proof.
  intros N. unfold split_once. rewrite span_while_app; auto.
  - apply Forall_forall. intros x I. apply negb_true_iff, N.eqb_neq. intros ->. tauto.
  - cbn. now rewrite N.eqb_refl.
Qed.
Lemma split_once_inv c t : match split_once c t with
  | Some (a, b) => t = a ++ c :: b /\ ~ In c a
  | None => ~ In c t
  end.
Proof.
  unfold split_once. destruct (span_while (fun x => negb (x =? c)%N) t) as [a b] eqn:E. apply span_while_spec in E as (E & F & H).
  assert (N : ~ In c a). { intros I. rewrite Forall_forall in F. apply F in I. rewrite N.eqb_refl in I. discriminate. }
  destruct b as [|x b]; subst; [now rewrite app_nil_r|]. cbn in H. apply negb_false_iff, N.eqb_eq in H. subst. auto.
Qed.
Lemma split_nonempty c t : split c t <> [].
Proof. induction t as [|x t IH]; cbn; [discriminate|]. destruct (split c t); [congruence|]. destruct (x =? c)%N; discriminate. Qed.
Lemma split_one c a : ~ In c a -> split c a = [a].
Proof.
  induction a as [|x a IH]; cbn; auto. intros N. rewrite IH by tauto. destruct (x =? c)%N eqn:E; auto. apply N.eqb_eq in E. subst. tauto.
Qed.
Lemma split_more c a b : ~ In c a -> split c (a ++ c :: b) = a :: split c b.
Proof.
  induction a as [|x a IH]; cbn; intros N.
  - rewrite N.eqb_refl. destruct (split c b) eqn:E; auto. now apply split_nonempty in E.
  - rewrite IH by tauto. destruct (x =? c)%N eqn:E; auto. apply N.eqb_eq in E. subst. tauto.
Qed.

Lemma split_dot a b : ~ In 46%N a -> split 46 (a ++ str "." ++ b) = a :: split 46 b.
Proof. apply split_more. Qed.
Lemma split_at a b : ~ In 64%N a -> split_once 64 (a ++ str "@" ++ b) = Some (a, b).
Proof. apply split_once_some. Qed.

(** ** Numbers *)
Lemma digits_no c n : is_digit c = false -> ~ In c (decimal n).
Proof. intros D I. pose proof (decimal_digits n) as F. rewrite Forall_forall in F. apply F in I. congruence. Qed.
Lemma parse_usize_decimal n : (n < 2 ^ 64)%N -> parse_usize (decimal n) = Some n.
Proof.
  intros L. unfold parse_usize. pose proof (digits_no 43 n eq_refl) as P.
  assert (E : (match decimal n with 43%N :: t => t | _ => decimal n end) = decimal n).
  { destruct (decimal n) as [|c t]; auto. destruct (N.eq_dec c 43) as [->|NE]; [cbn in P; tauto|].
    destruct c as [|p]; auto. do 6 (destruct p as [p|p|]; auto). congruence. }
  rewrite E, decimal_value_decimal.
  assert (D : forallb is_digit (decimal n) = true) by (apply forallb_digits, decimal_digits). rewrite D.
  destruct (N.ltb_spec n (2 ^ 64)); [|lia]. cbn [andb]. destruct (decimal_first n) as (c & r & -> & _). reflexivity.
Qed.
Lemma usize_succ_small n : (n + 1 < 2 ^ 32)%N -> usize_succ n = (n + 1)%N.
Proof. intros H. unfold usize_succ. apply N.mod_small. lia. Qed.

(** ** Ranges *)
Lemma pre_shown l : pre_to_string l = show_dotted l.
Proof.
  induction l as [|i l IH]; auto. destruct l as [|k l]; [destruct i; cbn; now rewrite ?app_nil_r|].
  destruct i; cbn [pre_to_string show_dotted show_identifier] in *; now rewrite IH.
Qed.
Lemma version_to_string_show v : version_to_string v = show v.
Proof.
  unfold version_to_string, show, is_pre. rewrite <- pre_shown. destruct (pre v); reflexivity.
Qed.

Lemma between v w : plain (Compare OpGtEq v) -> plain (Compare OpLt w) ->
  exists r, parse_range (str ">= " ++ show v ++ str " and < " ++ show w) = Ok r
  /\ forall x, contains r x = true <-> ~ precedes x v /\ precedes x w.
Proof.
  intros OV OW.
  assert (T : requirement_text [[Compare OpGtEq v; Compare OpLt w]] (str ">= " ++ show v ++ str " and < " ++ show w)).
  { exists [], (str ">= " ++ show v ++ str " and < " ++ show w), []. rewrite app_nil_r. split; [reflexivity|].
    split; [constructor|]. split; [constructor|]. constructor.
    replace (str ">= " ++ show v ++ str " and < " ++ show w)
      with ((operator_text OpGtEq ++ str " " ++ show v) ++ str " " ++ str "and" ++ str " " ++ (operator_text OpLt ++ str " " ++ show w))
      by (rewrite <- !app_assoc; reflexivity).
    apply all_more; try discriminate; try (repeat constructor; fail). }
  edestruct (parse_range_correct [[Compare OpGtEq v; Compare OpLt w]]) with (2 := T) as (r & R & M); [repeat constructor; apply OV || apply OW|].
  exists r. split; auto. intros x. rewrite M. cbn [existsb forallb clause_range contains]. rewrite orb_false_r, ?andb_true_r, !andb_true_iff, le_spec, lt_spec. tauto.
Qed.

Lemma release_plain a b c op : (a < 2 ^ 32)%N -> (b < 2 ^ 32)%N -> (c < 2 ^ 32)%N -> plain (Compare op (release a b c)).
Proof. intros A B C. unfold plain, legal_version. cbn. repeat split; auto; try lia. Qed.
Lemma show_release a b c : show (release a b c) = decimal a ++ str "." ++ decimal b ++ str "." ++ decimal c.
Proof. unfold show. cbn [release major minor patch pre build is_pre]. now rewrite !app_nil_r. Qed.
(** ** Specifiers *)
Lemma from_zero : exists r, parse_range (str ">= 0.0.0") = Ok r /\ forall x, contains r x = true <-> ~ precedes x (release 0 0 0).
Proof.
  assert (T : requirement_text [[Compare OpGtEq (release 0 0 0)]] (str ">= 0.0.0")).
  { exists [], (str ">= 0.0.0"), []. rewrite app_nil_r. split; [reflexivity|]. split; [constructor|]. split; [constructor|]. constructor.
    apply all_one. change (str ">= 0.0.0") with (operator_text OpGtEq ++ str " " ++ show (release 0 0 0)). apply operator_version. repeat constructor. }
  edestruct (parse_range_correct [[Compare OpGtEq (release 0 0 0)]]) with (2 := T) as (r & R & M).
  { repeat constructor; apply release_plain; reflexivity. }
  exists r. split; auto. intros x. rewrite M. cbn [existsb forallb clause_range contains]. rewrite orb_false_r, andb_true_r, le_spec. tauto.
Qed.
Lemma exactly v : plain (Compare OpEq v) -> exists r, parse_range (show v) = Ok r /\ forall x, contains r x = true <-> same_precedence x v.
Proof.
  intros P. assert (T : requirement_text [[Compare OpEq v]] (show v)).
  { exists [], (show v), []. rewrite app_nil_r. split; [reflexivity|]. split; [constructor|]. split; [constructor|]. constructor. apply all_one, bare_version. }
  edestruct (parse_range_correct [[Compare OpEq v]]) with (2 := T) as (r & R & M).
  { repeat constructor; apply P. }
  exists r. split; auto. intros x. rewrite M. cbn [existsb forallb clause_range contains]. rewrite orb_false_r, andb_true_r. apply eq_spec.
Qed.
Lemma hex_ok s r : parse_range s = Ok r -> hex s = inl (Hex s r).
Proof. intros E. unfold hex. now rewrite E. Qed.

Lemma piece_undotted s : legal_piece s -> ~ In 46%N s.
Proof. intros (_ & A & _) I. unfold alphanumeric in A. rewrite Forall_forall in A. apply A in I. discriminate I. Qed.
Lemma hyphenated_undotted s : hyphenated s -> ~ In 46%N s.
Proof.
  induction 1 as [s L|s r L H IH]; [now apply piece_undotted|]. intros I. apply in_app_iff in I as [I|I]; [now apply piece_undotted in I|].
  cbn in I. destruct I as [I|I]; [discriminate I|now apply IH].
Qed.
Lemma identifier_undotted i : legal_identifier i -> ~ In 46%N (show_identifier i).
Proof. destruct i as [n|t]; cbn [show_identifier legal_identifier]; [intros _; now apply digits_no|]. intros [H _]. now apply hyphenated_undotted. Qed.

Lemma three_parts v : legal_version v -> build v = None -> undotted v ->
  exists c, split 46 (show v) = [decimal (major v); decimal (minor v); c].
Proof.
  intros (_ & _ & _ & L & _) B U. unfold show. rewrite B, app_nil_r.
  rewrite (split_dot (decimal (major v))), (split_dot (decimal (minor v))) by now apply digits_no.
  exists (decimal (patch v) ++ (if is_pre v then str "-" ++ show_dotted (pre v) else [])). rewrite split_one; auto.
  intros I. apply in_app_iff in I as [I|I]; [now apply digits_no in I|].
  unfold is_pre in I. destruct (pre v) as [|i [|j l]] eqn:E; cbn [show_dotted] in I; auto; [|unfold undotted in U; now rewrite E in U].
  apply in_app_iff in I as [I|I]; [cbn in I; destruct I as [I|[]]; discriminate I|]. inversion L; subst. now apply identifier_undotted in I.
Qed.

Lemma specifier_understood s n allowed : asks s n allowed -> (forall v, s = n ++ str "@" ++ show v -> legal_version v -> build v = None -> undotted v) ->
  exists spec r, parse_gleam_add_specifier s = inl (n, Hex spec r) /\ parse_range spec = Ok r /\ forall x, contains r x = true <-> allowed x.
Proof.
  intros A U. unfold parse_gleam_add_specifier. destruct A as [n N|n a N A|n a b N A B|n v N L B M].
  - rewrite (split_once_none _ _ N). destruct from_zero as (r & R & C). rewrite (hex_ok _ _ R). eauto.
  - rewrite (split_at n _ N), (split_one 46 (decimal a)) by now apply digits_no. cbn [hd].
    rewrite parse_usize_decimal, usize_succ_small by lia.
    destruct (between (release a 0 0) (release (a + 1) 0 0)) as (r & R & C); try (apply release_plain; lia).
    rewrite !show_release in R.
    replace (str ">= " ++ (decimal a ++ str "." ++ str "0" ++ str ".0") ++ str " and < " ++ decimal (a + 1) ++ str ".0.0")
      with (str ">= " ++ (decimal a ++ str "." ++ decimal 0 ++ str "." ++ decimal 0) ++ str " and < " ++ decimal (a + 1) ++ str "." ++ decimal 0 ++ str "." ++ decimal 0)
      by (rewrite <- !app_assoc; reflexivity).
    rewrite (hex_ok _ _ R). eauto.
  - rewrite (split_at n _ N), (split_dot (decimal a)), (split_one 46 (decimal b)) by now apply digits_no. cbn [hd].
    rewrite parse_usize_decimal, usize_succ_small by lia.
    destruct (between (release a b 0) (release (a + 1) 0 0)) as (r & R & C); try (apply release_plain; lia).
    rewrite !show_release in R.
    replace (str ">= " ++ (decimal a ++ str "." ++ decimal b ++ str ".0") ++ str " and < " ++ decimal (a + 1) ++ str ".0.0")
      with (str ">= " ++ (decimal a ++ str "." ++ decimal b ++ str "." ++ decimal 0) ++ str " and < " ++ decimal (a + 1) ++ str "." ++ decimal 0 ++ str "." ++ decimal 0)
      by (rewrite <- !app_assoc; reflexivity).
    rewrite (hex_ok _ _ R). eauto.
  - rewrite (split_at n _ N). destruct (three_parts v L B (U v eq_refl L B)) as (c & ->). cbn [hd].
    rewrite parse_usize_decimal by (destruct M; lia).
    destruct (exactly v) as (r & R & C); [now split|]. rewrite (hex_ok _ _ R). eauto.
Qed.

(** Whatever is understood is so from the text up to the first [@]. *)
Lemma specifier_shape s n q : parse_gleam_add_specifier s = inl (n, q) ->
  (exists spec r, q = Hex spec r /\ parse_range spec = Ok r) /\ ~ In 64%N n /\ (s = n \/ exists rest, s = n ++ str "@" ++ rest).
Proof.
  assert (HX : forall t q, hex t = inl q -> exists spec r, q = Hex spec r /\ parse_range spec = Ok r).
  { intros t q' E. unfold hex in E. destruct (parse_range t) eqn:P; [|discriminate]. injection E as <-. eauto. }
  unfold parse_gleam_add_specifier. pose proof (split_once_inv 64 s) as S. destruct (split_once 64 s) as [[a b]|].
  - destruct S as [-> N]. destruct (parse_usize _) as [k|]; [|discriminate].
    destruct (split 46 b) as [|p1 [|p2 [|p3 [|p4 l]]]]; try discriminate;
      match goal with |- context [hex ?t] => destruct (hex t) eqn:E; [|discriminate] end; intros I; injection I as <- <-; apply HX in E; (split; [auto|split; [auto|right; now exists b]]).
  - destruct (hex _) eqn:E; [|discriminate]. intros I. injection I as <- <-. apply HX in E. auto.
Qed.

(** ** The files *)
Lemma in_insert {A} k (y : A) l n x : In (n, x) (insert k y l) <-> n = k /\ x = y \/ n <> k /\ In (n, x) l.
Proof.
  unfold insert, remove. cbn [In]. rewrite filter_In, negb_true_iff, text_eqb_neq. cbn [fst]. split.
  - intros [E|[I N]]; [injection E as -> ->|]; auto.
  - intros [[-> ->]|[N I]]; auto.
Qed.
Lemma find_first ps n p : find (fun p => text_eqb (name p) n) ps = Some p -> first_named ps n p.
Proof.
  induction ps as [|q ps IH]; cbn; [discriminate|]. destruct (text_eqb (name q) n) eqn:E.
  - intros I. injection I as ->. apply text_eqb_eq in E. exists [], ps. cbn. intuition.
  - intros F. apply IH in F as (a & b & -> & N & B). apply text_eqb_neq in E. exists (q :: a), b. cbn. split; auto. split; auto.
    intros r [<-|I]; auto.
Qed.
Lemma first_unique ps n p q : first_named ps n p -> first_named ps n q -> p = q.
Proof.
  intros (a & b & -> & N & B). revert N B. induction a as [|x a IH]; intros N B (c & d & E & N' & B').
  - destruct c as [|y c]; cbn in E; injection E as E1 E2; auto. destruct (B' y); [now left|congruence].
  - destruct c as [|y c]; cbn in E; injection E as E1 E2; [destruct (B x); [now left|congruence]|]. subst.
    apply IH; auto; [intros z I; apply B; now right|]. exists c, d. repeat split; auto. intros z I. apply B'. now right.
Qed.

Lemma changed_step ps n p names l l' : first_named ps n p -> changed_to ps names (insert n (Range (range_of (at_version p))) l) l' ->
  changed_to ps (n :: names) l l'.
Proof.
  intros F C k x. rewrite (C k x), in_insert. unfold range_of. rewrite version_to_string_show. cbn [In].
  split.
  - intros [(I & q & Q & ->)|[N [[-> ->]|[D I]]]]; [left; eauto|left; eauto|right]. split; auto. intros [E|E]; congruence.
  - intros [([<-|I] & q & Q & ->)|[N I]].
    + pose proof (first_unique _ _ _ _ F Q). subst q. destruct (in_dec text_eq_dec n names); [left; eauto|right; auto].
    + left. eauto.
    + right. split; [tauto|]. right. split; auto.
Qed.

Definition table (dev : bool) (g : gleam_toml) := if dev then toml_dev_dependencies g else toml_dependencies g.
Lemma insert_new_spec dev ps l : forall g m g' m', insert_new dev ps l g m = inl (g', m') ->
  toml_name g' = toml_name g /\ table (negb dev) g' = table (negb dev) g
  /\ changed_to ps (map fst l) (table dev g) (table dev g')
  /\ changed_to ps (map fst l) (toml_requirements m) (toml_requirements m')
  /\ toml_packages m' = toml_packages m /\ forall n, In n (map fst l) -> exists p, first_named ps n p.
Proof.
  induction l as [|[n r] l IH]; intros g m g' m'; cbn [insert_new map fst].
  - intros E. injection E as <- <-. unfold changed_to. cbn. repeat split; auto; try tauto.
  - destruct (find _ ps) as [p|] eqn:F; [|discriminate]. apply find_first in F. intros E. apply IH in E as (A & B & C & D & P & X).
    split; [rewrite A; unfold set_dependency; now destruct dev|]. split; [rewrite B; unfold set_dependency; now destruct dev|].
    split. { eapply changed_step; eauto. unfold set_dependency in C. now destruct dev. }
    split; [eapply changed_step; eauto; exact D|]. split; auto. intros k [<-|I]; eauto.
Qed.

Lemma parse_all_named specs : forall l, parse_all specs = inl l -> Forall2 named specs (map fst l)
  /\ Forall2 (fun s r => parse_gleam_add_specifier s = inl r) specs l.
Proof.
  induction specs as [|s specs IH]; cbn; intros l E; [injection E as <-; split; constructor|].
  destruct (parse_gleam_add_specifier s) as [[n q]|] eqn:S; [|discriminate]. destruct (parse_all specs) as [l0|]; [|discriminate].
  injection E as <-. destruct (IH l0 eq_refl) as [A B]. split; constructor; auto. cbn. apply specifier_shape in S as (_ & N & D). now split.
Qed.

Lemma command_parts e specs dev g w g' m' w' : command e specs dev g w = inl (g', m', w') ->
  exists c l m on_disc, read_config g = Some c /\ ~ In (config_name c) specs /\ parse_all specs = inl l
  /\ resolve_and_download_versions e UseYes Dev c (Some (l, dev)) [] w = (w', Some m)
  /\ disc w' = Some on_disc /\ insert_new dev (packages m) l g (written_manifest on_disc) = inl (g', m').
Proof.
  unfold command. destruct (read_config g) as [c|]; [|discriminate].
  destruct (existsb _ specs) eqn:X; [discriminate|]. destruct (parse_all specs) as [l|]; [|discriminate].
  destruct (resolve_and_download_versions _ _ _ _ _ _ _) as [w1 [m|]] eqn:R; [|discriminate].
  destruct (disc w1) as [d|] eqn:D; [|discriminate]. destruct (insert_new _ _ _ _ _) as [[g1 m1]|] eqn:I; [|discriminate].
  intros E. injection E as <- <- <-. exists c, l, m, d. repeat split; auto. intros J.
  assert (existsb (fun s => text_eqb s (config_name c)) specs = true); [|congruence]. apply existsb_exists. exists (config_name c). split; auto. apply text_eqb_refl.
Qed.

(** ** Reading them again *)
Lemma read_entries_in l : forall l', read_entries l = Some l' ->
  map fst l' = map fst l /\ (forall n r, In (n, r) l' <-> exists x, In (n, x) l /\ read_entry x = Some r)
  /\ forall n x, In (n, x) l -> exists r, read_entry x = Some r.
Proof.
  induction l as [|[n x] l IH]; cbn; intros l' E.
  - injection E as <-. cbn. repeat split; auto; try tauto. intros (x & [] & _).
  - destruct (read_entry x) as [r|] eqn:X; [|discriminate]. destruct (read_entries l) as [l0|]; [|discriminate]. injection E as <-.
    destruct (IH l0 eq_refl) as (A & B & C). cbn. rewrite A. split; auto. split.
    + intros k q. rewrite (B k q). split.
      * intros [E|(y & I & R)]; [injection E as -> ->; eauto|eauto].
      * intros (y & [E|I] & R); [injection E as -> ->; left; congruence|eauto].
    + intros k y [E|I]; [injection E as -> ->; eauto|eauto].
Qed.

Lemma place_refl can r : same_place can r r.
Proof. destruct r; cbn; auto; constructor. Qed.
Lemma place_sym can r s : same_place can r s -> same_place can s r.
Proof. destruct r, s; cbn; auto; intros H; inversion H; subst; constructor. Qed.
Lemma place_trans can r s t : same_place can r s -> same_place can s t -> same_place can r t.
Proof. destruct r, s, t; cbn; try congruence; intros H K; inversion H; subst; inversion K; subst; constructor. Qed.
Lemma written_read can r r' : read_entry (written r) = Some r' -> same_place can r r'.
Proof.
  destruct r as [s a|p|g f p]; cbn [written read_entry]; [|intros E; injection E as <-; apply place_refl..].
  unfold hex. destruct (parse_range s); [|discriminate]. intros E. injection E as <-. cbn. constructor.
Qed.

Lemma with_new_in l dev : forall c n r, ~ In n (map fst l) ->
  (In (n, r) (dependencies (with_new (Some (l, dev)) c)) <-> In (n, r) (dependencies c))
  /\ (In (n, r) (dev_dependencies (with_new (Some (l, dev)) c)) <-> In (n, r) (dev_dependencies c)).
Proof.
  cbn [with_new]. induction l as [|[k q] l IH]; intros c n r N; cbn [fold_left]; [tauto|]. cbn in N.
  destruct (IH (if dev then Config (config_name c) (dependencies c) (insert k q (dev_dependencies c)) else Config (config_name c) (insert k q (dependencies c)) (dev_dependencies c)) n r) as [A B]; [tauto|].
  assert (D : n <> k) by (intros ->; tauto). rewrite A, B. destruct dev; cbn [dependencies dev_dependencies]; rewrite in_insert; tauto.
Qed.
Lemma with_new_keys l dev : forall c n, let c' := with_new (Some (l, dev)) c in
  (In n (map fst (dependencies c)) -> In n (map fst (dependencies c')))
  /\ (In n (map fst (dev_dependencies c)) -> In n (map fst (dev_dependencies c')))
  /\ (In n (map fst l) -> In n (map fst ((if dev then dev_dependencies else dependencies) c'))).
Proof.
  assert (K : forall A k (q : A) t n, In n (map fst t) \/ n = k -> In n (map fst (insert k q t))).
  { intros A k q t n [I|I]; [|left; auto]. destruct (text_eq_dec n k) as [->|D]; [now left|].
    apply in_map_iff in I as ([n' x] & <- & I). apply (in_map fst _ (n', x)). apply in_insert. auto. }
  cbn [with_new]. induction l as [|[k q] l IH]; intros c n; cbn [fold_left]; [cbn; tauto|]. cbn [map fst In].
  specialize (IH (if dev then Config (config_name c) (dependencies c) (insert k q (dev_dependencies c)) else Config (config_name c) (insert k q (dependencies c)) (dev_dependencies c)) n).
  destruct IH as (A & B & C). destruct dev; cbn [dependencies dev_dependencies] in *; repeat split; intros H; auto; destruct H; subst; auto.
Qed.
Lemma with_new_tables l dev : forall c, tables c -> tables (with_new (Some (l, dev)) c).
Proof.
  cbn [with_new]. induction l as [|[k q] l IH]; intros c [T1 T2]; cbn [fold_left]; [now split|]. apply IH.
  destruct dev; split; auto; now apply insert_map.
Qed.

Lemma resolved_requirements e c w d r : tables c -> (forall m, disc w = Some m -> is_map (manifest_requirements m)) ->
  resolve_versions e UseYes Dev c [] w = (d, Some r) ->
  (~ exists n, In n (map fst (dependencies c)) /\ In n (map fst (dev_dependencies c)))
  /\ (forall n q, declared c n q -> exists q', In (n, q') (manifest_requirements (of_manifest r)) /\ same_place (canonical e) q' q)
  /\ (forall n q', In (n, q') (manifest_requirements (of_manifest r)) -> exists q, declared c n q /\ same_place (canonical e) q' q).
Proof.
  intros T M R. pose proof (direct_spec c T) as DS.
  assert (P : forall m d' m', perform_version_resolution e Dev c m [] (directory w) = (d', Some m') ->
    (~ exists n, In n (map fst (dependencies c)) /\ In n (map fst (dev_dependencies c)))
    /\ (forall n q, declared c n q -> exists q', In (n, q') (manifest_requirements m') /\ same_place (canonical e) q' q)
    /\ (forall n q', In (n, q') (manifest_requirements m') -> exists q, declared c n q /\ same_place (canonical e) q' q)).
  { intros m d' m' E. apply perform_shape in E as (? & ? & ? & ? & _ & _ & _ & E). rewrite E in DS. destruct DS as (_ & I & N).
    split; auto. split; intros n q Q; apply I in Q; exists q; split; auto; apply place_refl. }
  unfold resolve_versions in R. destruct (disc w) as [m|] eqn:D.
  - cbn [ensure_packages_exist_locally forallb] in R. destruct (all_direct_dependencies c) as [reqs|]; [|discriminate].
    destruct (is_same_requirements _ _ _) as [same|] eqn:S; [|discriminate].
    destruct (if same then path_dependency_configs_unchanged e else Some false) as [[|]|] eqn:U; [| |discriminate].
    + injection R as _ <-. destruct same; [|discriminate]. destruct DS as (RM & RI & N). apply same_true in S as [S1 S2]; auto.
      split; auto. split.
      * intros n q Q. apply RI in Q. apply S2 in Q as (q' & I & J). eauto.
      * intros n q' Q. apply S1 in Q as (q & I & J). exists q. rewrite <- RI. auto.
    + destruct (perform_version_resolution _ _ _ _ _ _) as [d' [m'|]] eqn:E; [|discriminate]. injection R as _ <-. eapply P; eauto.
  - destruct (perform_version_resolution _ _ _ _ _ _) as [d' [m'|]] eqn:E; [|discriminate]. cbn in R. injection R as _ <-. eapply P; eauto.
Qed.
Lemma parse_usize_none t : match t with [] => True | c :: _ => is_digit c = false /\ c <> 43%N end -> parse_usize t = None.
Proof.
  destruct t as [|c t]; [reflexivity|]. intros [D P]. unfold parse_usize.
  destruct c as [|k]; [cbn [forallb]; now rewrite D|].
  do 6 (destruct k as [k|k|]; try (cbn [forallb]; rewrite D; reflexivity)). congruence.
Qed.

Lemma resolve_source e use md c ups w d r : resolve_versions e use md c ups w = (d, Some r) ->
  disc w = Some (of_manifest r)
  \/ (exists a locks out, solve e a locks = (out, Some (packages (of_manifest r)))) /\ all_direct_dependencies c = inl (manifest_requirements (of_manifest r)).
Proof.
  unfold resolve_versions.
  assert (P : forall m ups d' m', perform_version_resolution e md c m ups (directory w) = (d', Some m') ->
    (exists a locks out, solve e a locks = (out, Some (packages m'))) /\ all_direct_dependencies c = inl (manifest_requirements m')).
  { intros m us d' m' E. apply perform_shape in E as (a & locks & out & ps & S & _ & <- & A). eauto. }
  assert (Q : forall (b : bool) m ex, (let (d, m) := perform_version_resolution e md c m ups (directory w) in
      (d, match m with Some m => Some (Resolved m (between_manifests ex m) b) | None => None end)) = (d, Some r) ->
    (exists a locks out, solve e a locks = (out, Some (packages (of_manifest r)))) /\ all_direct_dependencies c = inl (manifest_requirements (of_manifest r))).
  { intros b m ex. destruct (perform_version_resolution e md c m ups (directory w)) as [d' [m'|]] eqn:E; [|discriminate].
    intros X. injection X as <- <-. eauto. }
  destruct (disc w) as [ex|].
  - destruct (ensure_packages_exist_locally ex ups); [|discriminate].
    destruct use; [|right; eapply Q; eauto].
    destruct (all_direct_dependencies c) as [reqs|]; [|discriminate].
    destruct (is_same_requirements _ _ _) as [same|]; [|discriminate].
    destruct (match ups with [] => _ | _ => _ end) as [[|]|]; [|right; eapply Q; eauto|discriminate].
    intros X. injection X as <- <-. auto.
  - destruct (perform_version_resolution e md c None [] (directory w)) as [d' [m'|]] eqn:E; [|discriminate].
    destruct (ensure_packages_exist_locally m' ups); [|discriminate]. intros X. injection X as <- <-. right. eapply P; eauto.
Qed.
Lemma download_source e use md c new ups w w' m : resolve_and_download_versions e use md c new ups w = (w', Some m) ->
  (disc w' = Some m \/ disc w' = disc w)
  /\ (disc w = Some m
      \/ (exists a locks out, solve e a locks = (out, Some (packages m))) /\ all_direct_dependencies (with_new new c) = inl (manifest_requirements m)).
Proof.
  unfold resolve_and_download_versions. destruct (resolve_versions _ _ _ _ _ _) as [d [r|]] eqn:R; [|discriminate].
  destruct (add_missing_packages _ _ _ _ _) as [d2 [|]]; [|discriminate]. intros E. injection E as <- <-. cbn [disc].
  split; [destruct (any_changes r); auto|]. eapply resolve_source; eauto.
Qed.

Lemma direct_in c reqs n r : all_direct_dependencies c = inl reqs -> (In (n, r) reqs <-> declared c n r).
Proof.
  unfold all_direct_dependencies. intros E. pose proof (add_direct_spec (dependencies c ++ dev_dependencies c) [] (NoDup_nil _)) as S.
  rewrite E in S. destruct S as (_ & S & _). rewrite (S n r), in_app_iff. cbn. unfold declared. tauto.
Qed.
Lemma with_new_from l dev : forall c n r, declared (with_new (Some (l, dev)) c) n r -> declared c n r \/ In (n, r) l.
Proof.
  cbn [with_new]. induction l as [|[k q] l IH]; intros c n r; cbn [fold_left]; auto. intros D. apply IH in D as [D|D]; [|right; now right].
  unfold declared in *. destruct dev; cbn [dependencies dev_dependencies] in D; rewrite in_insert in D;
    destruct D as [D|D]; auto; destruct D as [[-> ->]|[_ D]]; auto; right; now left.
Qed.
Lemma named_unique s n n' : named s n -> named s n' -> n = n'.
Proof.
  intros [N [->|(r & ->)]] [N' [E|(r' & E)]]; auto.
  - subst. elim N. apply in_app_iff. right. now left.
  - subst. elim N'. apply in_app_iff. right. now left.
  - pose proof (split_at n r N) as A. rewrite E, (split_at n' r' N') in A. congruence.
Qed.
