(** Proofs about the tests made from the segments of a bit array pattern. *)
From Coq Require Import ZArith NArith Bool List Lia ZifyBool ZifyNat ZifyN.
From Verif Require Import Text TextProofs Strings StringsSpec StringsProofs Bits BitsSpec BitsIntProofs BitsProofs.
Import ListNotations.
Local Open Scope Z_scope.

Lemma skipn_skipn {A} m n (l : list A) : skipn n (skipn m l) = skipn (n + m) l.
Proof.
  revert l. induction m as [|m IH]; intros l; [now rewrite Nat.add_0_r|].
  rewrite Nat.add_succ_r. destruct l as [|x l]; [now rewrite !skipn_nil|]. apply IH.
Qed.

(** ** Options *)
Lemma has_true {V} (f : bit_array_option V -> bool) o os :
  (forall x, f x = true <-> x = o) -> existsb f os = true <-> In o os.
Proof.
  intros F. rewrite existsb_exists. split.
  - intros (x & H1 & H2). apply F in H2. now subst.
  - intros H. exists o. split; [assumption|]. now apply F.
Qed.
Lemma has_bits_spec s : has_bits_option s = true <-> In OBits (options s).
Proof. apply has_true. intros []; split; congruence. Qed.
Lemma has_bytes_spec s : has_bytes_option s = true <-> In OBytes (options s).
Proof. apply has_true. intros []; split; congruence. Qed.

Lemma find_size_none (os : list (bit_array_option size_expr)) :
  find_size os = None <-> forall e short, ~ In (OSize e short) os.
Proof.
  induction os as [|o os IH]; cbn [find_size]; [split; [intros _ e short []|reflexivity]|].
  destruct o; try (rewrite IH; split; intros H e short; [intros [E|E]; [discriminate|exact (H _ _ E)]|intros E; apply (H e short); right; exact E]).
  split; [discriminate|]. intros H. destruct (H value short_form). now left.
Qed.
Lemma find_size_some (os : list (bit_array_option size_expr)) e : (length (filter is_size os) <= 1)%nat ->
  (find_size os = Some e <-> exists short, In (OSize e short) os).
Proof.
  induction os as [|o os IH]; cbn [find_size filter is_size]; intros L; [split; [discriminate|intros [short []]]|].
  destruct o; cbn [is_size] in *; try (rewrite (IH L); split; intros [short H]; exists short; [now right|]; destruct H as [|H]; [discriminate|assumption]).
  split.
  - intros [= ->]. eexists. now left.
  - intros [short [[= -> ->]|H]]; [reflexivity|]. exfalso. cbn [length] in L.
    assert (In (OSize e short) (filter is_size os)) as I by (apply filter_In; auto).
    destruct (filter is_size os); [contradiction|cbn [length] in L; lia].
Qed.
Lemma unit_loop_spec (os : list (bit_array_option size_expr)) h : (length (filter is_unit os) <= 1)%nat ->
  (exists u, In (OUnit u) os /\ unit_loop h os = u /\ forall v, In (OUnit v) os -> v = u) \/
  ((forall u, ~ In (OUnit u) os) /\ ((h = true \/ In OBytes os) /\ unit_loop h os = 8%N \/
                                     (h = false /\ ~ In OBytes os) /\ unit_loop h os = 1%N)).
Proof.
  revert h. induction os as [|o os IH]; intros h L; cbn [unit_loop].
  - right. split; [intros u []|]. destruct h; [left|right]; split; auto.
  - destruct o; cbn [filter is_unit] in L;
      try (destruct (IH h L) as [(u & I & E & U)|[N [[H E]|[[H1 H2] E]]]];
        [left; exists u; split; [now right|split; [assumption|intros v [X|X]; [discriminate|auto]]]
        |right; split; [intros u [X|X]; [discriminate|exact (N u X)]|left; split; [destruct H; [now left|right; now right]|assumption]]
        |right; split; [intros u [X|X]; [discriminate|exact (N u X)]|right; split; [split; [assumption|intros [X|X]; [discriminate|auto]]|assumption]]]).
    + destruct (IH true L) as [(u & I & E & U)|[N [[H E]|[[H1 H2] E]]]].
      * left. exists u. split; [now right|split; [assumption|intros v [X|X]; [discriminate|auto]]].
      * right. split; [intros u [X|X]; [discriminate|exact (N u X)]|]. left. split; [right; now left|assumption].
      * discriminate.
    + left. exists value. split; [now left|]. split; [reflexivity|]. intros v [[= ->]|X]; [reflexivity|].
      exfalso. cbn [length] in L.
      assert (In (OUnit v) (filter is_unit os)) as I by (apply filter_In; auto).
      destruct (filter is_unit os); [contradiction|cbn [length] in L; lia].
Qed.
Lemma unit_spec s u : valid_segment s -> (unit_of s u <-> u = Z.of_N (seg_unit s)).
Proof.
  intros (_ & L & _). unfold seg_unit.
  destruct (unit_loop_spec (options s) false L) as [(v & I & E & U)|[N [[H E]|[[H1 H2] E]]]]; rewrite E.
  - split; [|intros ->; now constructor]. intros [w H|H _|H _]; [f_equal; auto|destruct (H _ I)|destruct (H _ I)].
  - destruct H as [|H]; [discriminate|]. split.
    + intros [w X|_ _|_ X]; [destruct (N _ X)|reflexivity|contradiction].
    + intros ->. now apply bytes_unit.
  - split.
    + intros [w X|_ X|_ _]; [destruct (N _ X)|contradiction|reflexivity].
    + intros ->. now apply bits_unit.
Qed.

Lemma as_bytes_byte s : Forall scalar_value s -> Forall (fun x => (x < 256)%N) (as_bytes s).
Proof.
  unfold as_bytes. induction 1 as [|c s H _ IH]; cbn [flat_map]; [constructor|].
  apply Forall_app. split; [|assumption]. unfold encode_utf8, scalar_value in *.
  assert (c < 1114112)%N by lia.
  pose proof (N.mod_upper_bound c 64 ltac:(lia)).
  pose proof (N.mod_upper_bound (c / 64) 64 ltac:(lia)).
  pose proof (N.mod_upper_bound (c / 4096) 64 ltac:(lia)).
  destruct (N.ltb_spec c 128); [repeat constructor; lia|].
  destruct (N.ltb_spec c 2048).
  { assert (c / 64 < 32)%N by (apply N.div_lt_upper_bound; lia). repeat constructor; lia. }
  destruct (N.ltb_spec c 65536).
  { assert (c / 4096 < 16)%N by (apply N.div_lt_upper_bound; lia). repeat constructor; lia. }
  assert (c / 262144 < 5)%N by (apply N.div_lt_upper_bound; lia). repeat constructor; lia.
Qed.
Lemma encoding_byte s t : Forall scalar_value (convert_string_escape_chars t) ->
  Forall (fun x => (x < 256)%N) (encoding s t).
Proof.
  intros H. unfold encoding. destruct (existsb _ _); [now apply utf16_bytes|].
  destruct (existsb _ _); [now apply utf32_bytes|now apply as_bytes_byte].
Qed.

(** ** Sizes *)
Definition rest_size (s : read_size) : bool := match s with RemainingBits | RemainingBytes => true | _ => false end.
Lemma bit_array_size_fixed e : forall u vs, rest_size (bit_array_size u vs e) = false.
Proof. induction e as [z|n|o l IHl r IHr|e IH]; intros u vs; cbn [bit_array_size]; auto. destruct (_ =? _)%N; reflexivity. Qed.
Lemma default_size_fixed s p : rest_size (default_size s p) = false.
Proof.
  induction p as [z|t|t|n|n|n p IH]; cbn [default_size]; destruct (is_int_type _); auto.
  destruct (has_utf16_option s), (has_utf32_option s); reflexivity.
Qed.
Lemma default_size_string s p t : is_int_type (type_ s) = false -> strip p = PString t ->
  default_size s p = ConstantBits (8 * Z.of_nat (length (encoding s t))).
Proof.
  intros T. induction p as [z|t'|t'|n|n|n p IH]; cbn [default_size strip]; try discriminate; rewrite T.
  - intros [= ->]. unfold encoding. fold (has_utf16_option s). fold (has_utf32_option s).
    destruct (has_utf16_option s), (has_utf32_option s); f_equal; rewrite ?utf16_length, ?utf32_length; lia.
  - assumption.
Qed.
Lemma default_size_other s p : is_int_type (type_ s) = false -> (forall t, strip p <> PString t) ->
  default_size s p = ConstantBits 64.
Proof.
  intros T. induction p as [z|t'|t'|n|n|n p IH]; cbn [default_size strip]; rewrite T; try reflexivity; intros H.
  - destruct (H t'). reflexivity.
  - auto.
Qed.
Lemma default_size_int s p : type_ s = TInt -> default_size s p = ConstantBits 8.
Proof. intros T. destruct p; cbn [default_size]; now rewrite T. Qed.
Lemma string_dec p : (exists t, p = PString t) \/ (forall t, p <> PString t).
Proof. destruct p; try (right; intros; discriminate). left. now eexists. Qed.

Lemma string_size s vs t : valid_segment s -> strip (value s) = PString t ->
  segment_size s vs = ConstantBits (8 * Z.of_nat (length (encoding s t))).
Proof.
  intros V E. destruct V as (_ & _ & V & _). destruct (V t E) as (_ & T & N1 & N2 & N3).
  unfold segment_size, seg_size. rewrite (proj2 (find_size_none _) N3).
  destruct (has_bits_option s) eqn:HB; [apply has_bits_spec in HB; contradiction|].
  destruct (has_bytes_option s) eqn:HY; [apply has_bytes_spec in HY; contradiction|].
  apply default_size_string; [now rewrite T|assumption].
Qed.

Lemma add_size_rest o s : rest_size s = true -> add_size o s = o.
Proof. destruct o, s; try discriminate; reflexivity. Qed.

(** ** The tests are well formed *)
Lemma matched_value_wf s p prev sz : 
  (forall t, strip p = PString t -> Forall (fun x => (x < 256)%N) (encoding s t) /\
     sz = ConstantBits (8 * Z.of_nat (length (encoding s t)))) ->
  let r := ReadAction prev sz (type_ s) (seg_endianness s) (seg_signed s) in
  wf_value r (segment_matched_value s p r).
Proof.
  intros H r. induction p as [z|t|t|n|n|n p IH]; cbn [segment_matched_value wf_value]; auto.
  exact (H t eq_refl).
Qed.
Lemma segments_loop_wf segs : valid_segments segs -> forall prev vs, bag_nodup (variables prev) ->
  Forall wf_test (segments_loop segs prev vs).
Proof.
  induction segs as [|s segs IH]; intros V prev vs D; cbn [segments_loop]; [constructor|].
  assert (valid_segment s /\ valid_segments segs) as [Vs Vr] by (destruct segs; cbn in V |- *; tauto).
  apply Forall_app. split; [|apply IH; [assumption|now apply add_size_nodup]].
  unfold segment_tests. apply Forall_app. split; [destruct (can_be_negative _); repeat constructor|].
  apply Forall_app. split.
  { unfold size_tests. destruct (segment_size s vs) eqn:E; repeat constructor; rewrite <- ?E; now apply add_size_nodup. }
  apply Forall_app. split; [destruct (match type_ s with TFloat => _ | _ => _ end); repeat constructor|].
  constructor; [|constructor]. cbn [wf_test]. apply matched_value_wf.
  intros t E. split; [|now apply string_size]. apply encoding_byte. destruct Vs as (_ & _ & Vs & _). now apply (Vs t E).
Qed.
Lemma tests_wf segs : valid_segments segs -> Forall wf_test (bit_array_to_tests segs).
Proof.
  intros V. unfold bit_array_to_tests. destruct segs as [|s segs].
  - repeat constructor.
  - now apply segments_loop_wf.
Qed.

Section Values.
  Context (outside : text -> Z) (float_is : text -> endianness -> list bool -> bool)
          (finite : endianness -> list bool -> bool) (b : list bool).
  Notation eval_var := (eval_var outside b).
  Notation eval_offset := (eval_offset outside b).
  Notation eval_size := (eval_size outside b).
  Notation holds := (holds outside float_is finite b).
  Notation bindings := (bindings outside b).
  Notation matches := (matches float_is finite).
  Notation chunk_matches := (chunk_matches float_is finite).

  Definition env_of (vs : pattern_variables) (n : text) : Z :=
    eval_var match lookup_segment n vs with Some r => PatternSegment n r | None => OutsideVariable n end.

  Lemma bit_array_size_eval vs env e : (forall n, env n = env_of vs n) ->
    forall u, eval_size (bit_array_size u vs e) = size_value env e * Z.of_N u.
  Proof.
    intros E. induction e as [z|n|o l IHl r IHr|e IH]; intros u; cbn [bit_array_size size_value].
    - apply ev_constant.
    - rewrite ev_variable, E. reflexivity.
    - assert (A : eval_size (BinaryOperator (bit_array_size 1 vs l) (bit_array_size 1 vs r) o) =
                  arith o (size_value env l) (size_value env r)).
      { rewrite ev_op, IHl, IHr. f_equal; lia. }
      destruct (N.eqb_spec u 1) as [->|N]; [rewrite A; lia|]. rewrite ev_op, A, ev_constant. reflexivity.
    - apply IH.
  Qed.

  Definition extent_size (s : read_size) : extent :=
    match s with RemainingBits => Rest_bits | RemainingBytes => Rest_bytes | s => Bits_ (eval_size s) end.
  Lemma extent_size_fixed s : rest_size s = false -> extent_size s = Bits_ (eval_size s).
  Proof. destruct s; cbn; congruence. Qed.
  Lemma extent_spec env s vs x : valid_segment s -> (forall n, env n = env_of vs n) ->
    (extent_of env s x <-> x = extent_size (segment_size s vs)).
  Proof.
    intros V E. unfold segment_size, seg_size. pose proof V as (L & _ & _).
    destruct (find_size (options s)) as [e|] eqn:F.
    - rewrite extent_size_fixed, (bit_array_size_eval vs env e E) by apply bit_array_size_fixed.
      pose proof (proj1 (find_size_some _ e L) F) as [short I]. split.
      + intros [e' short' u I' U|N|N|N|t N|N]; try destruct (N _ _ I).
        apply (unit_spec s u V) in U as ->.
        assert (find_size (options s) = Some e') as F' by (apply find_size_some; eauto).
        rewrite F in F'. injection F' as ->. reflexivity.
      + intros ->. eapply explicit_extent; [exact I|]. now apply unit_spec.
    - pose proof (proj1 (find_size_none _) F) as N.
      destruct (has_bits_option s) eqn:HB; [|assert (~ In OBits (options s)) by (rewrite <- has_bits_spec; congruence)].
      { apply has_bits_spec in HB. cbn [extent_size]. split; [|intros ->; now apply rest_bits].
        intros [e' short' u I' U| | | | |]; try contradiction; [destruct (N _ _ I')|reflexivity]. }
      destruct (has_bytes_option s) eqn:HY; [|assert (~ In OBytes (options s)) by (rewrite <- has_bytes_spec; congruence)].
      { apply has_bytes_spec in HY. cbn [extent_size]. split; [|intros ->; now apply rest_bytes].
        intros [e' short' u I' U| | | | |]; try contradiction; [destruct (N _ _ I')|reflexivity]. }
      rewrite extent_size_fixed by apply default_size_fixed.
      destruct (is_int_type (type_ s)) eqn:T.
      { assert (type_ s = TInt) as T' by (destruct (type_ s); try discriminate; reflexivity).
        rewrite (default_size_int _ _ T'), ev_constant. split; [|intros ->; now apply default_int].
        intros [e' short' u I' U| | | | |]; try contradiction; [destruct (N _ _ I')|reflexivity]. }
      assert (type_ s <> TInt) as T' by (intros X; rewrite X in T; discriminate).
      destruct (string_dec (strip (value s))) as [[t S]|S].
      { rewrite (default_size_string _ _ _ T S), ev_constant. split; [|intros ->; now apply default_string].
        intros [e' short' u I' U| | | |t' _ _ _ _ S'|_ _ _ _ S']; try contradiction.
        - destruct (N _ _ I').
        - rewrite S in S'. injection S' as ->. reflexivity.
        - destruct (S' t S). }
      { rewrite (default_size_other _ _ T S), ev_constant. split; [|intros ->; now apply default_other].
        intros [e' short' u I' U| | | |t' _ _ _ _ S'|_ _ _ _ S']; try contradiction.
        - destruct (N _ _ I').
        - destruct (S _ S').
        - reflexivity. }
  Qed.

  Lemma uint_of_nonneg e c : 0 <= uint_of e c.
  Proof. pose proof (uint_of_range e c). lia. Qed.
  Lemma int_of_nonneg e c : 0 <= int_of e false c.
  Proof. destruct c as [|x c]; [reflexivity|]. unfold int_of. cbn [andb]. apply uint_of_nonneg. Qed.
  Lemma can_be_negative_sound s : can_be_negative s = false -> 0 <= eval_size s.
  Proof.
    induction s as [z|v u|l IHl r IHr o| |]; cbn [can_be_negative].
    - rewrite ev_constant. lia.
    - destruct v as [n [f s t e sg]|n]; [|discriminate]. cbn [ra_signed]. intros ->.
      rewrite ev_variable, ev_seg. destruct (read _ _ _) as [c|]; [|lia].
      pose proof (int_of_nonneg e c). nia.
    - rewrite ev_op. destruct o; try discriminate; rewrite orb_false_iff; intros [H1 H2];
        specialize (IHl H1); specialize (IHr H2); cbn [arith].
      + lia.
      + nia.
      + destruct (Z.eqb_spec (eval_size r) 0); [lia|]. apply Z.quot_pos; lia.
      + destruct (Z.eqb_spec (eval_size r) 0); [lia|]. apply Z.rem_nonneg; lia.
    - rewrite ev_rest_bits. lia.
    - rewrite ev_rest_bytes. lia.
  Qed.

  (** ** One segment *)
  Lemma chunk_spec s p prev sz c :
    let r := ReadAction prev sz (type_ s) (seg_endianness s) (seg_signed s) in
    let v := segment_matched_value s p r in
    chunk_matches s p c <->
    value_matches float_is v (seg_endianness s) (seg_signed s) c = true /\
    (type_ s = TFloat -> is_literal v = false -> finite (seg_endianness s) c = true).
  Proof.
    intros r. unfold r. induction p as [z|t|t|n|n|n p IH]; cbn [segment_matched_value BitsSpec.chunk_matches value_matches is_literal].
    - rewrite Z.eqb_eq. split; [intros H; split; [exact H|discriminate]|tauto].
    - split; [intros H; split; [exact H|discriminate]|tauto].
    - change (if has_utf16_option s then _ else _) with (encoding s t).
      split; [intros H; split; [|discriminate]|intros [H _]].
      + rewrite H. destruct (list_eq_dec _ _ _); congruence.
      + destruct (bytes_of c); [|discriminate]. destruct (list_eq_dec _ _ _); congruence.
    - split; [intros H; split; [reflexivity|intros T _; exact (H T)]|intros [_ H] T; exact (H T eq_refl)].
    - split; [intros H; split; [reflexivity|intros T _; exact (H T)]|intros [_ H] T; exact (H T eq_refl)].
    - exact IH.
  Qed.
  Lemma value_names_spec s p r : value_names (segment_matched_value s p r) = names p.
  Proof. induction p as [z|t|t|n|n|n p IH]; cbn; congruence. Qed.

  Definition new_variables (s : segment) (r : read_action) (vs : pattern_variables) : pattern_variables :=
    match segment_matched_value s (value s) r with
    | MVariable name | MAssign name _ => (name, r) :: vs
    | LiteralFloat _ | LiteralInt _ _ | LiteralString _ _ | MDiscard _ => vs
    end.
  Lemma new_variables_env s vs env prev sz c : valid_segment s ->
    read b (eval_offset prev) (eval_size sz) = Some c -> (forall n, env n = env_of vs n) ->
    forall n,
      fold_left (fun env x => extend env x (int_of (endian s) (is_signed s) c)) (names (value s)) env n =
      env_of (new_variables s (ReadAction prev sz (type_ s) (seg_endianness s) (seg_signed s)) vs) n.
  Proof.
    intros (_ & _ & _ & V) R E. set (r := ReadAction _ _ _ _ _).
    assert (A : forall x n, extend env x (int_of (endian s) (is_signed s) c) n = env_of ((x, r) :: vs) n).
    { intros x n. unfold extend, env_of. cbn [lookup_segment]. destruct (text_eqb n x).
      - unfold r. rewrite ev_seg, R. reflexivity.
      - apply E. }
    unfold new_variables. destruct (value s) as [z|t|t|n|n|n p] eqn:P; cbn [segment_matched_value names fold_left]; auto.
    rewrite (V n p eq_refl). cbn [fold_left]. auto.
  Qed.

  Lemma bindings_app a c : bindings (a ++ c) = bindings a ++ bindings c.
  Proof. apply flat_map_app. Qed.
  Lemma segment_bindings s prev sz last r v c : read_of outside b r = Some c ->
    bindings (segment_tests s prev sz last r v) = map (fun x => (x, c)) (value_names v).
  Proof.
    intros R. unfold segment_tests. rewrite !bindings_app.
    assert (A1 : bindings (if can_be_negative sz then [ReadSizeIsNotNegative sz] else []) = []) by now destruct (can_be_negative sz).
    assert (A2 : bindings (size_tests prev sz last) = []) by now destruct sz.
    assert (A3 : forall g : bool, bindings (if g then [SegmentIsFiniteFloat r] else []) = []) by now intros [].
    rewrite A1, A2, A3.
    cbn [app]. unfold BitsSpec.bindings. cbn [flat_map]. rewrite R. apply app_nil_r.
  Qed.

  Lemma size_tests_holds prev sz last : forallb holds (size_tests prev sz last) = true <->
    match sz with
    | RemainingBits => True
    | RemainingBytes => (Z.of_nat (length b) - eval_offset prev) mod 8 = 0
    | _ => if last then eval_offset prev + eval_size sz = Z.of_nat (length b)
           else eval_offset prev + eval_size sz <= Z.of_nat (length b)
    end.
  Proof.
    assert (A : forall o, forallb holds [Size (if last then Equal else GreaterEqual) o] = true <->
      if last then eval_offset o = Z.of_nat (length b) else eval_offset o <= Z.of_nat (length b)).
    { intros o. cbn [forallb]. rewrite andb_true_r. unfold BitsSpec.holds. destruct last; lia. }
    unfold size_tests. destruct sz; [rewrite A, eval_add_size; destruct last; tauto|rewrite A, eval_add_size; destruct last; tauto|rewrite A, eval_add_size; destruct last; tauto| |].
    - split; [intros _; exact I|reflexivity].
    - cbn [forallb]. rewrite andb_true_r. unfold BitsSpec.holds. rewrite Z.eqb_eq.
      destruct prev as [c vs cs]. cbn [constant variables calculations]. rewrite !ev_offset.
      assert (c = 8 * (c ÷ 8) + Z.rem c 8) by (apply Z.quot_rem'; lia).
      replace (Z.of_nat (length b) - (Z.rem c 8 + BitsSpec.eval_bag outside b vs + BitsSpec.eval_calcs outside b cs))
        with (Z.of_nat (length b) - (c + BitsSpec.eval_bag outside b vs + BitsSpec.eval_calcs outside b cs) + (c ÷ 8) * 8) by lia.
      now rewrite Z.mod_add by lia.
  Qed.

  Lemma segment_tests_holds s prev sz last p :
    let r := ReadAction prev sz (type_ s) (seg_endianness s) (seg_signed s) in
    forallb holds (segment_tests s prev sz last r (segment_matched_value s p r)) = true <->
    0 <= eval_size sz /\ forallb holds (size_tests prev sz last) = true /\
    exists c, read_of outside b r = Some c /\ chunk_matches s p c.
  Proof.
    intros r. unfold segment_tests. rewrite !forallb_app, !andb_true_iff.
    set (v := segment_matched_value s p r).
    assert (A : forallb holds (if can_be_negative sz then [ReadSizeIsNotNegative sz] else []) = true <-> 0 <= eval_size sz).
    { destruct (can_be_negative sz) eqn:E.
      - cbn [forallb]. rewrite andb_true_r. unfold BitsSpec.holds. lia.
      - apply can_be_negative_sound in E. split; [intros _; exact E|reflexivity]. }
    rewrite A. clear A.
    assert (B : forallb holds [Match v r] = true <->
      exists c, read_of outside b r = Some c /\ value_matches float_is v (seg_endianness s) (seg_signed s) c = true).
    { cbn [forallb]. rewrite andb_true_r. unfold BitsSpec.holds. destruct (read_of outside b r) as [c|].
      - split; [intros H; now exists c|]. intros (c' & [= <-] & H). exact H.
      - split; [discriminate|]. intros (c' & H & _). discriminate. }
    rewrite B. clear B.
    set (g := match type_ s with TFloat => negb (is_literal v) | _ => false end).
    assert (C : forall c, read_of outside b r = Some c ->
      (forallb holds (if g then [SegmentIsFiniteFloat r] else []) = true <->
       (type_ s = TFloat -> is_literal v = false -> finite (seg_endianness s) c = true))).
    { intros c R. unfold g. destruct (type_ s) eqn:T; try (cbn; split; [intros _ H; discriminate H|reflexivity]).
      destruct (is_literal v); cbn [negb]; [cbn; split; [intros _ _ H; discriminate H|reflexivity]|].
      cbn [forallb]. rewrite andb_true_r. unfold BitsSpec.holds. rewrite R. cbn [ra_endianness r].
      unfold r. cbn [ra_endianness]. tauto. }
    split.
    - intros (H1 & H2 & H3 & c & R & H4). split; [assumption|]. split; [assumption|]. exists c. split; [assumption|].
      apply (chunk_spec s p prev sz c). split; [exact H4|]. now apply (C c R).
    - intros (H1 & H2 & c & R & H). apply (chunk_spec s p prev sz c) in H as [H4 H5].
      split; [assumption|]. split; [assumption|]. split; [now apply (C c R)|]. exists c. split; assumption.
  Qed.

  (** ** All segments *)
  Lemma read_all pos : 0 <= pos <= Z.of_nat (length b) ->
    read b pos (Z.of_nat (length b) - pos) = Some (skipn (Z.to_nat pos) b).
  Proof.
    intros H. unfold read. destruct (_ && _) eqn:E; [|lia]. f_equal. apply firstn_all2. rewrite skipn_length. lia.
  Qed.
  Lemma read_split pos n c rest : 0 <= pos <= Z.of_nat (length b) -> Z.of_nat (length c) = n ->
    (skipn (Z.to_nat pos) b = c ++ rest <->
     read b pos n = Some c /\ rest = skipn (Z.to_nat (pos + n)) b).
  Proof.
    intros H L. rewrite Z2Nat.inj_add by lia. rewrite Nat.add_comm, <- skipn_skipn.
    unfold read. split.
    - intros E. assert (length (skipn (Z.to_nat pos) b) = length c + length rest)%nat as L2 by (rewrite E; apply app_length).
      rewrite skipn_length in L2. destruct (_ && _) eqn:G; [|lia]. rewrite E.
      replace (Z.to_nat n) with (length c) by lia.
      rewrite firstn_app, Nat.sub_diag, firstn_all, app_nil_r.
      rewrite skipn_app, Nat.sub_diag, skipn_all. auto.
    - destruct (_ && _) eqn:G; [|intros [X _]; discriminate]. intros [[= <-] ->]. symmetry. apply firstn_skipn.
  Qed.
  Lemma takes_rest_size s vs : valid_segment s -> rest_size (segment_size s vs) = takes_rest s.
  Proof.
    intros _. unfold segment_size, seg_size, takes_rest.
    destruct (find_size (options s)) as [e|] eqn:F.
    - rewrite bit_array_size_fixed. symmetry. apply andb_false_iff. left. apply negb_false_iff.
      revert F. induction (options s) as [|o os IH]; cbn; [discriminate|]. destruct o; cbn; auto.
    - pose proof (proj1 (find_size_none _) F) as N.
      assert (existsb is_size (options s) = false) as ->.
      { apply not_true_iff_false. rewrite existsb_exists. intros ([] & I & T); try discriminate. exact (N _ _ I). }
      cbn [negb andb].
      destruct (has_bits_option s) eqn:HB.
      { symmetry. apply existsb_exists. exists OBits. split; [now apply has_bits_spec|reflexivity]. }
      destruct (has_bytes_option s) eqn:HY.
      { symmetry. apply existsb_exists. exists OBytes. split; [now apply has_bytes_spec|reflexivity]. }
      rewrite default_size_fixed. symmetry. apply not_true_iff_false. rewrite existsb_exists.
      intros (o & I & T). destruct o; try discriminate.
      + apply has_bytes_spec in I. congruence.
      + apply has_bits_spec in I. congruence.
  Qed.

  Lemma segments_loop_cons s segs prev vs :
    segments_loop (s :: segs) prev vs =
    (let sz := segment_size s vs in
     let r := ReadAction prev sz (type_ s) (seg_endianness s) (seg_signed s) in
     segment_tests s prev sz (match segs with [] => true | _ => false end) r (segment_matched_value s (value s) r)
     ++ segments_loop segs (add_size prev sz) (new_variables s r vs)).
  Proof. reflexivity. Qed.

  Lemma segments_spec segs : valid_segments segs -> forall prev vs env,
    (forall n, env n = env_of vs n) -> 0 <= eval_offset prev <= Z.of_nat (length b) ->
    (segs = [] -> eval_offset prev = Z.of_nat (length b)) ->
    forall bound, matches env segs (skipn (Z.to_nat (eval_offset prev)) b) bound <->
      forallb holds (segments_loop segs prev vs) = true /\ bound = bindings (segments_loop segs prev vs).
  Proof.
    induction segs as [|s segs IH]; intros V prev vs env E P Last bound.
    - cbn [segments_loop forallb BitsSpec.bindings flat_map]. split.
      + intros H. inversion H. auto.
      + intros [_ ->]. rewrite skipn_all2 by (specialize (Last eq_refl); lia). constructor.
    - assert (valid_segment s /\ valid_segments segs) as [Vs Vr] by (destruct segs; cbn in V |- *; tauto).
      rewrite segments_loop_cons. cbv zeta. set (sz := segment_size s vs).
      set (r := ReadAction prev sz (type_ s) (seg_endianness s) (seg_signed s)).
      set (last := match segs with [] => true | _ => false end).
      rewrite forallb_app, andb_true_iff, bindings_app.
      pose proof (segment_tests_holds s prev sz last (value s)) as ST0. cbv zeta in ST0. fold r in ST0.
      rewrite ST0. clear ST0.
      pose proof (fun x => extent_spec env s vs x Vs E) as X. fold sz in X.
      destruct (rest_size sz) eqn:RS.
      + (* the rest of the array *)
        assert (segs = []) as ->.
        { destruct segs as [|s2 segs]; [reflexivity|]. exfalso. cbn [valid_segments] in V.
          unfold sz in RS. rewrite (takes_rest_size s vs Vs) in RS. destruct V as (_ & V & _). congruence. }
        assert (RA : read_of outside b r = Some (skipn (Z.to_nat (eval_offset prev)) b)).
        { unfold BitsSpec.read_of, r. cbn [ra_from ra_size]. destruct sz; try discriminate; now apply read_all. }
        cbn [segments_loop forallb BitsSpec.bindings flat_map]. rewrite app_nil_r.
        rewrite (segment_bindings s prev sz last r _ _ RA), value_names_spec.
        rewrite (size_tests_holds prev sz last).
        assert (ES : eval_size sz = 0) by (destruct sz; try discriminate; [apply ev_rest_bits|apply ev_rest_bytes]).
        assert (LS : Z.of_nat (length (skipn (Z.to_nat (eval_offset prev)) b)) = Z.of_nat (length b) - eval_offset prev)
          by (rewrite skipn_length; lia).
        remember (skipn (Z.to_nat (eval_offset prev)) b) as rest eqn:RE. split.
        * intros H. inversion H as [|? ? ? n c rest' bound' X1 X2 X3 X4|? ? ? X1 X2|? ? ? X1 X2 X3]; subst.
          -- exfalso. apply X in X1. destruct sz; discriminate.
          -- apply X in X1. split; [|reflexivity]. split; [|reflexivity]. split; [lia|].
             split; [destruct sz; try discriminate; exact I|]. eexists. split; [exact RA|assumption].
          -- apply X in X1. split; [|reflexivity]. split; [|reflexivity]. split; [lia|].
             split; [destruct sz; try discriminate; rewrite <- LS; assumption|]. eexists. split; [exact RA|assumption].
        * intros (((_ & H2 & c & R & H3) & _) & ->). rewrite RA in R. injection R as <-.
          destruct sz; try discriminate.
          -- apply matches_rest_bits; [now apply X|assumption].
          -- apply matches_rest_bytes; [now apply X|rewrite LS; assumption|assumption].
      + (* a number of bits *)
        rewrite (extent_size_fixed _ RS) in X.
        assert (RO : read_of outside b r = read b (eval_offset prev) (eval_size sz)).
        { unfold BitsSpec.read_of, r. cbn [ra_from ra_size]. destruct sz; try discriminate; reflexivity. }
        assert (ST : forallb holds (size_tests prev sz last) = true <->
          if last then eval_offset prev + eval_size sz = Z.of_nat (length b)
          else eval_offset prev + eval_size sz <= Z.of_nat (length b)).
        { rewrite size_tests_holds. destruct sz; try discriminate; reflexivity. }
        rewrite ST, RO. clear ST.
        assert (NEXT : forall c, read b (eval_offset prev) (eval_size sz) = Some c ->
          (segs = [] -> eval_offset prev + eval_size sz = Z.of_nat (length b)) ->
          forall bound',
          matches (fold_left (fun env x => extend env x (int_of (endian s) (is_signed s) c)) (names (value s)) env)
            segs (skipn (Z.to_nat (eval_offset prev + eval_size sz)) b) bound' <->
          forallb holds (segments_loop segs (add_size prev sz) (new_variables s r vs)) = true /\
          bound' = bindings (segments_loop segs (add_size prev sz) (new_variables s r vs))).
        { intros c R L bound'. pose proof R as R'. apply read_spec in R' as (R1 & R2 & R3 & _).
          rewrite <- (eval_add_size outside b sz prev). rewrite <- (eval_add_size outside b sz prev) in R3, L.
          apply IH; try assumption.
          - now apply new_variables_env.
          - rewrite (eval_add_size outside b sz prev) in *. lia. }
        split.
        * intros H. inversion H as [|? ? ? n c rest' bound' X1 X2 X3 X4 Q1 Q2 Q3|? ? ? X1 X2|? ? ? X1 X2 X3]; subst;
            try (apply X in X1; discriminate).
          apply X in X1. injection X1 as X1.
          symmetry in Q3. apply (read_split _ _ _ _ P X1) in Q3 as [R ->].
          assert (L : segs = [] -> eval_offset prev + eval_size sz = Z.of_nat (length b)).
          { intros ->. assert (L0 : length (skipn (Z.to_nat (eval_offset prev + eval_size sz)) b) = 0%nat) by (inversion X4; reflexivity).
            rewrite skipn_length in L0. apply read_spec in R as (R1 & R2 & R3 & _). lia. }
          apply (NEXT c R L) in X4 as [X4 ->].
          pose proof R as R'. apply read_spec in R' as (R1 & R2 & R3 & _).
          split.
          -- split; [|exact X4]. split; [assumption|]. split.
             { unfold last. destruct segs; [now apply L|assumption]. }
             exists c. split; assumption.
          -- rewrite (segment_bindings s prev sz last r _ c), value_names_spec by (rewrite RO; exact R). reflexivity.
        * intros (((H1 & H2 & c & R & H3) & H4) & ->).
          pose proof R as R'. apply read_spec in R' as (R1 & R2 & R3 & R4 & _).
          assert (skipn (Z.to_nat (eval_offset prev)) b = c ++ skipn (Z.to_nat (eval_offset prev + eval_size sz)) b) as ->.
          { apply (read_split _ _ _ _ P R4). auto. }
          rewrite (segment_bindings s prev sz last r _ c), value_names_spec by (rewrite RO; exact R).
          apply (matches_bits _ _ _ s segs (eval_size sz)); [now apply X|assumption|assumption|].
          apply (NEXT c R); [|auto]. intros ->. exact H2.
  Qed.

  Theorem tests_spec segs bound : valid_segments segs ->
    matches outside segs b bound <->
    forallb holds (bit_array_to_tests segs) = true /\ bound = bindings (bit_array_to_tests segs).
  Proof.
    intros V. assert (E0 : eval_offset (constant_offset 0) = 0) by apply eval_constant_offset.
    destruct segs as [|s segs].
    - cbn [bit_array_to_tests forallb]. unfold BitsSpec.holds. rewrite E0, andb_true_r. cbn [BitsSpec.bindings flat_map].
      split.
      + intros H. inversion H. split; reflexivity.
      + intros [H ->]. destruct b; [constructor|cbn [length] in H; lia].
    - pose proof (segments_spec (s :: segs) V (constant_offset 0) [] outside (fun n => eq_refl)) as S.
      rewrite E0 in S. apply S; [lia|discriminate].
  Qed.
End Values.
