From Coq Require Import String NArith Arith List Bool Lia ZifyBool ZifyN ZifyNat Permutation Sorted.
From Verif Require Import Text TextProofs Version VersionSpec VersionProofs Toml ManifestText ManifestTextSpec ManifestTextProofs.
Import ListNotations.
Local Open Scope list_scope.
Local Open Scope N_scope.

Lemma requirement_reads root e : fine_requirement plain e ->
  read_requirement (requirement_value root (snd e)) = Some (canon_requirement root (snd e)).
Proof.
  intros [_ F]. destruct (snd e) as [g|p|g f p].
  - destruct F as [_ [r P]]. unfold read_requirement, requirement_value, untagged, read_range.
    cbn -[parse_range]. rewrite P. reflexivity.
  - reflexivity.
  - destruct F as (G & R & P). destruct p as [p|]; [|reflexivity]. destruct P as (P & N & I).
    unfold read_requirement, requirement_value, untagged, safe_path.
    cbn -[parse_range with_slashes validate_safe_relative_path].
    rewrite with_slashes_plain by exact P. rewrite (inside_valid _ I). destruct p; [contradiction|reflexivity].
Qed.

Section Written.
  Context (root : text) (m : manifest) (Fm : fine_manifest plain m).
  Let ps := sorted_by name (packages m).
  Let rs := sorted_by fst (requirements m).
  Let entries := map (fun e => (fst e, requirement_to_toml root (snd e))) rs.
  Let entry_values := map (fun e : text * requirement => (fst e, requirement_value root (snd e))) rs.

  Lemma fine_ps : Forall (fine_package plain) ps.
  Proof. eapply Permutation_Forall; [apply sorted_by_perm|apply Fm]. Qed.
  Lemma fine_rs : Forall (fine_requirement plain) rs.
  Proof. eapply Permutation_Forall; [apply sorted_by_perm|apply Fm]. Qed.
  Lemma entries_read : Forall2 pair_reads entries entry_values.
  Proof.
    unfold entries, entry_values. induction fine_rs as [|e l E F IH]; constructor; [|exact IH]. split; [reflexivity|]. split.
    - apply package_name_bare, E.
    - cbn [snd]. rewrite requirement_text. apply reads_inline.
      + destruct (snd e); discriminate.
      + apply fields_read, requirement_fields_read, E.
  Qed.
  Lemma entries_lower : Forall (fun e => lower_first (fst e)) entries.
  Proof. unfold entries. induction fine_rs as [|e l E F IH]; constructor; [|exact IH]. apply package_name_lower, E. Qed.

  Let inlines := map (fun p => inline (texts (package_fields root p))) ps.
  Lemma packages_text : flat_map (package_to_toml root) ps = flat_map package_line inlines.
  Proof. unfold inlines. induction ps as [|p l IH]; [reflexivity|]. cbn [flat_map map]. rewrite IH, package_text. reflexivity. Qed.
  Lemma packages_read : Forall2 reads inlines (map (package_value root) ps).
  Proof.
    unfold inlines. induction fine_ps as [|p l P F IH]; constructor; [|exact IH].
    apply reads_inline; [discriminate|]. apply fields_read, package_fields_read, P.
  Qed.
  Lemma packages_begin : Forall begins_table inlines.
  Proof. apply Forall_map. apply Forall_forall. intros p _. eexists. reflexivity. Qed.
  Lemma requirements_text :
    flat_map (fun e => fst e ++ str " = " ++ requirement_to_toml root (snd e) ++ [10]) rs = flat_map entry_line entries.
  Proof. unfold entries. induction rs as [|e l IH]; [reflexivity|]. cbn [flat_map map]. rewrite IH. reflexivity. Qed.

  Definition written : document :=
    Document [(str "packages", Array (map (package_value root) ps))] [(str "requirements", entry_values)].

  Lemma lines_written f : (2 * length (to_toml root m) < f)%nat -> lines f (to_toml root m) = Some written.
  Proof.
    intro L. destruct f as [|f]; [lia|]. unfold to_toml in L |- *. fold ps rs in L |- *.
    rewrite packages_text, requirements_text in L |- *.
    set (P := flat_map package_line inlines) in L |- *. set (R := flat_map entry_line entries) in L |- *.
    cbn [lines].
    change (skip false (header ++ str "packages = [" ++ [10] ++ P ++ str "]" ++ [10] ++ [10] ++ str "[requirements]" ++ [10] ++ R))
      with (str "packages" ++ 32 :: 61 :: 32 :: 91 :: 10 :: P ++ 93 :: 10 :: 10 :: str "[requirements]" ++ 10 :: R).
    assert (forall r, key (str "packages" ++ 32 :: r) = Some (str "packages", 32 :: r)) as K by (intro r; reflexivity).
    assert (2 * length (91%N :: 10%N :: P ++ 93%N :: 10%N :: 10%N :: str "[requirements]" ++ 10%N :: R) + 6 < f)%nat as LF.
    { rewrite !app_length in *. cbn [length app] in *. rewrite ?app_length in *. cbn [length app] in *.
      change (length (str "packages = [")) with 12%nat in L. change (length (str "]")) with 1%nat in L.
      rewrite (app_length (str "[requirements]")). cbn [length]. lia. }
    clear L.
    assert (value f (91 :: 10 :: P ++ 93 :: 10 :: 10 :: str "[requirements]" ++ 10 :: R)
            = Some (Array (map (package_value root) ps), 10 :: 10 :: str "[requirements]" ++ 10 :: R)) as V.
    { destruct f as [|f]; [lia|]. cbn [value].
      change (skip false (10 :: P ++ 93 :: 10 :: 10 :: str "[requirements]" ++ 10 :: R))
        with (skip false (P ++ 93 :: 10 :: 10 :: str "[requirements]" ++ 10 :: R)).
      unfold P. rewrite (items_lines inlines (map (package_value root) ps)); [reflexivity|apply packages_begin|apply packages_read|].
      fold P. cbn [length] in LF. lia. }
    assert (lines f (10 :: 10 :: str "[requirements]" ++ 10 :: R) = Some (Document [] [(str "requirements", entry_values)])) as T.
    { destruct f as [|f]; [lia|]. cbn [lines].
      change (skip false (10 :: 10 :: str "[requirements]" ++ 10 :: R)) with (91 :: str "requirements" ++ 93 :: 10 :: R).
      cbn iota. change (key (skip_blanks (str "requirements" ++ 93 :: 10 :: R))) with (Some (str "requirements", 93 :: 10 :: R)).
      cbn [skip_blanks Toml.blank N.eqb Pos.eqb orb line_end].
      assert (lines f (10 :: R) = Some (Document entry_values [])) as ->; [|reflexivity].
      apply (lines_entries entries); [apply entries_lower|apply entries_read|reflexivity|].
      fold R. cbn [length] in LF. rewrite !app_length in LF. cbn [length] in LF. rewrite app_length in LF. cbn [length] in LF. lia. }
    change (str "packages" ++ 32 :: 61 :: 32 :: 91 :: 10 :: P ++ 93 :: 10 :: 10 :: str "[requirements]" ++ 10 :: R)
      with (112 :: str "ackages" ++ 32 :: 61 :: 32 :: 91 :: 10 :: P ++ 93 :: 10 :: 10 :: str "[requirements]" ++ 10 :: R).
    cbn iota.
    change (key (112 :: str "ackages" ++ 32 :: 61 :: 32 :: 91 :: 10 :: P ++ 93 :: 10 :: 10 :: str "[requirements]" ++ 10 :: R))
      with (Some (str "packages", 32 :: 61 :: 32 :: 91 :: 10 :: P ++ 93 :: 10 :: 10 :: str "[requirements]" ++ 10 :: R)).
    cbn iota.
    change (equals (32 :: 61 :: 32 :: 91 :: 10 :: P ++ 93 :: 10 :: 10 :: str "[requirements]" ++ 10 :: R))
      with (Some (91 :: 10 :: P ++ 93 :: 10 :: 10 :: str "[requirements]" ++ 10 :: R)).
    cbn iota. rewrite V. cbn [line_end skip_blanks Toml.blank N.eqb Pos.eqb orb]. rewrite T. reflexivity.
  Qed.

  Lemma strings_distinct l : forallb distinct_inside (map Str l) = true.
  Proof. induction l; [reflexivity|assumption]. Qed.
  Lemma package_distinct p : distinct_inside (package_value root p) = true.
  Proof.
    destruct p as [n v tools oa ns src].
    destruct oa as [a|], src as [c|r c [q|]|q]; unfold package_value, package_fields, source_fields, values;
      cbn [name at_version build_tools otp_app needs from map app fst snd distinct_inside forallb];
      rewrite !strings_distinct; reflexivity.
  Qed.
  Lemma requirement_distinct r : distinct_inside (requirement_value root r) = true.
  Proof. destruct r as [g|p|g f [p|]]; reflexivity. Qed.
  Lemma distinct_nodup l : NoDup l -> distinct l = true.
  Proof.
    induction 1 as [|k l N D IH]; [reflexivity|]. cbn. rewrite IH, andb_true_r. apply negb_true_iff.
    destruct (existsb _ _) eqn:X; [|reflexivity]. apply existsb_exists in X as (x & I & E). apply text_eqb_eq in E. subst. contradiction.
  Qed.
  Lemma written_distinct : distinct_keys written = true.
  Proof.
    unfold distinct_keys, written. cbn [Toml.root tables map fst snd app forallb distinct_inside].
    assert (forallb distinct_inside (map (package_value root) ps) = true) as ->.
    { apply forallb_forall. intros v I. apply in_map_iff in I as (p & <- & _). apply package_distinct. }
    assert (distinct (map fst entry_values) = true) as ->.
    { apply distinct_nodup. unfold entry_values. rewrite map_map. cbn [fst].
      eapply Permutation_NoDup; [|apply (fine_keys _ _ Fm)]. apply Permutation_map, sorted_by_perm. }
    assert (forallb (fun e => distinct_inside (snd e)) entry_values = true) as ->; [|reflexivity].
    apply forallb_forall. intros e I. apply in_map_iff in I as (p & <- & _). apply requirement_distinct.
  Qed.

  Lemma read_back : read_manifest (to_toml root m) = Some (canon root m).
  Proof.
    unfold read_manifest, parse_toml. rewrite lines_written, written_distinct by lia.
    unfold read_document, top_level, written. cbn [Toml.root tables map fst snd app].
    change (field (str "requirements") _) with (Some (Table entry_values)).
    change (field (str "packages") _) with (Some (Array (map (package_value root) ps))). cbn iota.
    assert (all read_entry entry_values = Some (map (fun e => (fst e, canon_requirement root (snd e))) rs)) as ->.
    { unfold entry_values. induction fine_rs as [|e l E F IH]; [reflexivity|]. cbn [map all]. rewrite IH.
      unfold read_entry. cbn [fst snd]. rewrite requirement_reads, package_name_valid by apply E. reflexivity. }
    assert (all read_package (map (package_value root) ps) = Some (map (canon_package root) ps)) as ->.
    { induction fine_ps as [|p l P F IH]; [reflexivity|]. cbn [map all]. rewrite IH, package_reads by exact P. reflexivity. }
    reflexivity.
  Qed.

  Lemma canon_same : same_manifest root m (canon root m).
  Proof.
    split.
    - exists ps. split; [apply sorted_by_perm|]. unfold canon. cbn [packages]. fold ps.
      induction fine_ps as [|p l P F IH]; constructor; [|exact IH].
      split; try reflexivity; [apply sorted_by_perm|]. destruct P as [_ _ _ _ _ S].
      cbn [canon_package from]. destruct (from p) as [c|r c [q|]|q]; cbn in *; auto.
      + destruct S as (_ & _ & Q & _). rewrite with_slashes_plain by exact Q. auto.
      + destruct S as [Q C]. rewrite with_slashes_plain by (apply relative_plain, Q). apply relative_same, C.
    - exists rs. split; [apply sorted_by_perm|]. unfold canon. cbn [requirements]. fold rs.
      induction fine_rs as [|e l E F IH]; constructor; [|exact IH]. destruct E as [_ E]. split; [reflexivity|]. cbn [snd].
      destruct (snd e) as [g|q|g f [q|]]; cbn in *; auto.
      + destruct E as [Q C]. rewrite with_slashes_plain by (apply relative_plain, Q). apply relative_same, C.
      + destruct E as (_ & _ & Q & _). rewrite with_slashes_plain by exact Q. reflexivity.
  Qed.
End Written.

(** ** Writing what was read *)
Lemma slashes_twice s : with_slashes (with_slashes s) = with_slashes s.
Proof.
  induction s as [|c s IH]; [reflexivity|]. cbn. f_equal; [|exact IH]. destruct (c =? 92) eqn:E; [reflexivity|]. rewrite E. reflexivity.
Qed.
(** A relative path stays one, unless a backslash is its first character. *)
Lemma relative_twice root p : plain p ->
  with_slashes (make_relative root (with_slashes (make_relative root p))) = with_slashes (make_relative root p).
Proof.
  intro P. rewrite (with_slashes_plain (make_relative root p)) by apply relative_plain, P.
  assert (is_absolute (make_relative root p) = false) as A.
  { unfold make_relative. destruct (is_absolute p) eqn:E; [|exact E].
    destruct (is_absolute (join _)) eqn:X; [|reflexivity]. apply is_absolute_spec in X as [r X].
    exfalso. revert X. apply join_relative, diff_good; apply components_good. }
  unfold make_relative at 1. rewrite A. apply with_slashes_plain, relative_plain, P.
Qed.
Lemma canon_package_text root p : fine_package plain p -> package_to_toml root (canon_package root p) = package_to_toml root p.
Proof.
  intros [_ _ _ _ _ S]. unfold package_to_toml. cbn [canon_package name at_version build_tools otp_app needs from].
  rewrite (sorted_by_same (fun s => s) (sorted_by _ (needs p))) by apply sorted_by_order.
  destruct (from p) as [c|r c [q|]|q]; try reflexivity; cbn [canon_source source_to_toml].
  - rewrite slashes_twice. reflexivity.
  - rewrite relative_twice by apply S. reflexivity.
Qed.
Lemma canon_requirement_text root e : fine_requirement plain e ->
  requirement_to_toml root (canon_requirement root (snd e)) = requirement_to_toml root (snd e).
Proof.
  intros [_ F]. destruct (snd e) as [g|q|g f [q|]]; try reflexivity; cbn [canon_requirement requirement_to_toml].
  - rewrite relative_twice by apply F. reflexivity.
  - rewrite slashes_twice. reflexivity.
Qed.
Lemma canon_text root m : fine_manifest plain m -> to_toml root (canon root m) = to_toml root m.
Proof.
  intro Fm. unfold to_toml, canon. cbn [packages requirements].
  rewrite (sorted_by_same name (map _ _)) by (apply (order_map name name); [reflexivity|apply sorted_by_order]).
  rewrite (sorted_by_same fst (map _ _)) by (apply (order_map fst fst); [reflexivity|apply sorted_by_order]).
  assert (flat_map (package_to_toml root) (map (canon_package root) (sorted_by name (packages m)))
          = flat_map (package_to_toml root) (sorted_by name (packages m))) as ->.
  { induction (fine_ps m Fm) as [|p l P F IH]; [reflexivity|]. cbn [map flat_map].
    rewrite IH, canon_package_text by exact P. reflexivity. }
  assert (flat_map (fun e => fst e ++ str " = " ++ requirement_to_toml root (snd e) ++ [10])
            (map (fun e : text * requirement => (fst e, canon_requirement root (snd e))) (sorted_by fst (requirements m)))
          = flat_map (fun e => fst e ++ str " = " ++ requirement_to_toml root (snd e) ++ [10]) (sorted_by fst (requirements m))) as ->;
    [|reflexivity].
  induction (fine_rs m Fm) as [|e l E F IH]; [reflexivity|]. cbn [map flat_map fst snd].
  rewrite IH, canon_requirement_text by exact E. reflexivity.
Qed.

(** ** The order of things *)
Lemma reordered_text root p q : reordered p q -> package_to_toml root p = package_to_toml root q.
Proof.
  intros (N & V & T & A & R & S). unfold package_to_toml. rewrite N, V, T, A, S.
  rewrite (sorted_by_unique (fun s => s) _ _ R) by auto. reflexivity.
Qed.
Lemma insert_reordered p q : reordered p q -> forall l l', Forall2 reordered l l' ->
  Forall2 reordered (insert_by name p l) (insert_by name q l').
Proof.
  intros R l l' F. induction F as [|a b l l' A F IH]; [constructor; [exact R|constructor]|]. cbn [insert_by].
  pose proof R as (E1 & _). pose proof A as (E2 & _). rewrite E1, E2.
  destruct (text_cmp (name p) (name a)); repeat first [assumption | apply Forall2_cons].
Qed.
Lemma sorted_reordered l l' : Forall2 reordered l l' -> Forall2 reordered (sorted_by name l) (sorted_by name l').
Proof. induction 1; cbn; [constructor|]. apply insert_reordered; assumption. Qed.
Lemma order_text root m n :
  (exists ps, Permutation (packages m) ps /\ Forall2 reordered ps (packages n)) ->
  Permutation (requirements m) (requirements n) ->
  NoDup (map name (packages m)) -> NoDup (map fst (requirements m)) ->
  to_toml root m = to_toml root n.
Proof.
  intros (ps & P & F) R N K. unfold to_toml.
  rewrite (sorted_by_unique name _ _ P) by (apply nodup_name, N).
  rewrite (sorted_by_unique fst _ _ R) by (apply nodup_keys, K).
  assert (flat_map (package_to_toml root) (sorted_by name ps) = flat_map (package_to_toml root) (sorted_by name (packages n))) as ->;
    [|reflexivity].
  apply sorted_reordered in F.
  induction F as [|a b l l' A F IH]; [reflexivity|]. cbn [flat_map]. rewrite IH, (reordered_text root a b A). reflexivity.
Qed.

(** ** Lines *)
Definition no_newline (s : text) : Prop := Forall (fun c => c <> 10) s.
Lemma plain_no_newline s : plain s -> no_newline s.
Proof. apply Forall_impl. intro c. unfold plain_char. lia. Qed.
Lemma nn_app a b : no_newline a -> no_newline b -> no_newline (a ++ b).
Proof. intros. apply Forall_app. split; assumption. Qed.
Lemma nn_quoted s : plain s -> no_newline (quoted s).
Proof. intro P. apply nn_app; [repeat constructor; lia|]. apply nn_app; [apply plain_no_newline, P|repeat constructor; lia]. Qed.
Ltac nn_str := repeat constructor; cbn; lia.
Lemma nn_strings l : forall i, Forall plain l -> no_newline (strings_from i l).
Proof.
  induction l as [|s l IH]; intros i F; [constructor|]. inversion F; subst. cbn [strings_from].
  apply nn_app; [destruct i; nn_str|]. apply nn_app; [apply nn_quoted; assumption|apply IH; assumption].
Qed.
Lemma nn_source root s : fine_source plain s -> no_newline (source_to_toml root s).
Proof.
  destruct s as [c|r c p|p]; intro F; cbn [source_to_toml].
  - apply nn_app; [nn_str|]. apply nn_quoted, base_16_plain, F.
  - destruct F as (R & C & P). repeat (apply nn_app; [first [apply nn_quoted; assumption|nn_str]|]).
    destruct p as [p|]; [|constructor]. destruct P as [P _]. apply nn_app; [nn_str|]. rewrite with_slashes_plain by exact P. apply nn_quoted, P.
  - destruct F as [P _]. apply nn_app; [nn_str|]. rewrite with_slashes_plain by (apply relative_plain, P). apply nn_quoted, relative_plain, P.
Qed.
Lemma package_is_a_line root p : fine_package plain p -> exists l, package_to_toml root p = l ++ [10] /\ ~ In 10 l.
Proof.
  intros [N V T A R S]. unfold package_to_toml. eexists. split; [rewrite !app_assoc; reflexivity|].
  rewrite <- !app_assoc.
  match goal with |- ~ In _ ?l => assert (no_newline l) as H end.
  { repeat (apply nn_app; [first [apply nn_quoted, package_name_plain, N|apply nn_quoted, show_plain, V|apply nn_strings, T
      |apply nn_strings; eapply Permutation_Forall; [apply sorted_by_perm|exact R]|apply nn_source, S|nn_str
      |destruct (otp_app p); [apply nn_app; [nn_str|apply nn_quoted, package_name_plain, A]|constructor]]|]). nn_str. }
  intro I. unfold no_newline in H. rewrite Forall_forall in H. exact (H 10 I eq_refl).
Qed.
Lemma insert_by_split {A} (key : A -> text) a l : exists l1 l2, l = l1 ++ l2 /\ insert_by key a l = l1 ++ a :: l2.
Proof.
  induction l as [|b l (l1 & l2 & E1 & E2)]; [exists [], []; split; reflexivity|]. cbn.
  destruct (text_cmp (key a) (key b)); try (exists [], (b :: l); split; reflexivity).
  exists (b :: l1), l2. rewrite E1 at 1. rewrite E2. split; reflexivity.
Qed.
Lemma one_line root rs p ps : fine_package plain p ->
  Forall (fine_package plain) ps ->
  exists a b l, to_toml root (Manifest rs ps) = a ++ [10] ++ b
    /\ to_toml root (Manifest rs (p :: ps)) = a ++ [10] ++ l ++ [10] ++ b /\ ~ In 10 l.
Proof.
  intros F Fs. unfold to_toml. cbn [packages requirements]. unfold sorted_by at 3. cbn [fold_right]. fold (sorted_by name ps).
  destruct (insert_by_split name p (sorted_by name ps)) as (l1 & l2 & E1 & E2).
  assert (Forall (fine_package plain) (l1 ++ l2)) as G. { rewrite <- E1. eapply Permutation_Forall; [apply sorted_by_perm|exact Fs]. }
  rewrite E2. rewrite E1. rewrite !flat_map_app. cbn [flat_map].
  destruct (package_is_a_line root p F) as (l & -> & NI).
  assert (exists a, header ++ str "packages = [" ++ [10] ++ flat_map (package_to_toml root) l1 = a ++ [10]) as [a EA].
  { apply Forall_app in G as [G _].
    destruct l1 as [|q0 l1] using rev_ind; [exists (header ++ str "packages = ["); cbn [flat_map]; rewrite app_nil_r, <- app_assoc; reflexivity|].
    clear IHl1. apply Forall_app in G as [_ G]. inversion G as [|? ? Q _]; subst.
    destruct (package_is_a_line root q0 Q) as (lq & EQ & _). rewrite flat_map_app. cbn [flat_map]. rewrite EQ, app_nil_r.
    eexists. rewrite !app_assoc. reflexivity. }
  eexists a, _, l. repeat split; [| |exact NI].
  - rewrite (app_assoc a), <- EA. rewrite <- !app_assoc. reflexivity.
  - rewrite (app_assoc a), <- EA. rewrite <- !app_assoc. reflexivity.
Qed.

Lemma cmp_dictionary a : forall b, dictionary N.lt a b -> text_cmp a b = Lt.
Proof.
  induction a as [|x a IH]; intros b D; inversion D as [|? ? ? ? L|? ? ? D']; subst; [reflexivity|..]; cbn.
  - apply N.compare_lt_iff in L. rewrite L. reflexivity.
  - rewrite N.compare_refl. apply IH, D'.
Qed.
Lemma le_alphabetical a b : le a b -> ~ dictionary N.lt b a.
Proof. unfold le. intros H D. apply cmp_dictionary in D. rewrite cmp_opp in D. destruct (text_cmp a b); cbn in D; congruence. Qed.
