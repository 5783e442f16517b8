(** Proofs about the Erlang code of a module. *)
From Coq Require Import String NArith ZArith List Bool Lia ZifyBool ZifyN ZifyNat.
From Verif Require Import Text TextProofs Strings StringsSpec StringsProofs Erl ErlangSource ErlangSourceSpec ErlangSourceRun
  ErlangSourceScan ErlangSourceParse ErlangTypes ErlangTypesSpec ErlangTypesProofs ErlangTypesDefs
  ErlangCode ErlangRun ErlangRunProofs ErlangCodeSpec ErlangCodeNames ErlangCodeTree ErlangCodeCalls ErlangCodeRel ErlangCodeEnv
  ErlangCodeSim ErlangCodeSimMain ErlangCodeWf ErlangModule ErlangModuleSpec.
Import ListNotations.
Local Open Scope nat_scope.
Local Open Scope list_scope.

(** ** Names *)

Lemma name_chars n : forallb module_name_character n = true -> plain n /\ atom_name n = true.
Proof.
  unfold plain, atom_name. rewrite ! forallb_forall. intro H.
  split; intros c C; specialize (H c C); unfold module_name_character, name_char, is_alphanumeric, is_lower, is_upper, is_digit in H; lia.
Qed.
Lemma escaped_pieces p : ~ In 34%N p ->
  unescaped (escaped_path p) = p /\ contents (escaped_path p) p /\ quoted 34 Plain (escaped_path p ++ [34%N]) = Some (p, []).
Proof.
  unfold unescaped. induction p as [|c p IH]; intro H; [split; [reflexivity|split; [constructor|reflexivity]]|].
  assert (H1 : c <> 34%N) by (intro; subst; apply H; left; reflexivity).
  destruct (IH (fun I => H (or_intror I))) as (A & B & C). unfold escaped_path in *. cbn [flat_map].
  destruct (N.eqb_spec c 92) as [->|E].
  - split; [cbn; rewrite A; reflexivity|]. split.
    + apply (contents_piece [92; 92]%N); [apply escaped_backslash|discriminate|exact B].
    + rewrite <- app_assoc. cbn -[escape_char]. rewrite C. reflexivity.
  - cbn [app unescape quoted]. destruct (N.eqb_spec c 92) as [F|_]; [contradiction|]. rewrite A. split; [reflexivity|]. split.
    + change (c :: ?x) with ([c] ++ x). apply contents_piece; [apply StringsSpec.plain; exact E|congruence|exact B].
    + destruct (N.eqb_spec c 34) as [F|_]; [contradiction|]. rewrite C. reflexivity.
Qed.
Lemma escape_is n : escape_erlang_existing_name n = exported_name n.
Proof. reflexivity. Qed.
Lemma exported_atom n : valid_name n = true -> atom_name (exported_name n) = true.
Proof. intro V. unfold exported_name. destruct (text_eqb _ _); [reflexivity|apply valid_atom, V]. Qed.
Lemma exported_injective a b : valid_name a = true -> valid_name b = true -> exported_name a = exported_name b -> a = b.
Proof.
  intros A B. unfold exported_name. destruct (text_eqb a (str "module_info")) eqn:E, (text_eqb b (str "module_info")) eqn:F; intro H.
  - apply text_eqb_eq in E, F. congruence.
  - subst b. discriminate B.
  - subst a. discriminate A.
  - exact H.
Qed.

(** ** Arguments of external functions *)

Definition external_names_ok (s : state) (args : list arg_names) (xs : list text) (s' : state) : Prop :=
  external_arguments_names args s = Some (xs, s') /\ length xs = length args /\
  forallb ErlangSourceSpec.variable_name xs = true /\ NoDup xs /\ (forall y, In y xs -> ~ allocated s y) /\ ~ In (str "_") xs.
Lemma external_names args : forall s, NoDup (map fst (arguments_bound args)) -> (forall x, In x (map fst (arguments_bound args)) -> legal_name x) ->
  exists xs s', external_names_ok s args xs s'.
Proof.
  induction args as [|[x|x at_] args IH]; intros s N L.
  - exists [], s. split; [reflexivity|]. split; [reflexivity|]. split; [reflexivity|]. split; [constructor|]. split; [intros ? []|intros []].
  - assert (M := moves_generated [] s). destruct (IH (State (taken_names s) (variable_names s) (generated_variables s + 1)) N L) as (xs & s' & A & B & C & D & E & F).
    exists (gen (generated_variables s) :: xs), s'. split.
    { cbn [external_arguments_names]. erewrite bind_eq by apply new_generated. erewrite bind_eq by exact A. reflexivity. }
    split; [cbn; congruence|]. split; [cbn [forallb]; rewrite gen_variable; exact C|]. split; [|split].
    + constructor; [|exact D]. intro I. apply (E _ I). right. exists (generated_variables s). cbn. split; [lia|reflexivity].
    + intros y [<-|I]; [apply gen_fresh|]. intro Y. apply (E y I). eapply moves_allocated; eassumption.
    + intros [I|I]; [exact (gen_not_discard _ I)|exact (F I)].
  - cbn [arguments_bound flat_map app map] in N, L. change (flat_map _ args) with (arguments_bound args) in N, L. inversion N as [|? ? NX N']; subst.
    assert (LX : legal_name x) by (apply L; left; reflexivity).
    destruct (IH (alloc1 (x, at_) s) N' (fun z Z => L z (or_intror Z))) as (xs & s' & A & B & C & D & E & F).
    exists (rho s x :: xs), s'. split.
    { cbn [external_arguments_names]. erewrite bind_eq by apply new_variable. erewrite bind_eq by exact A. reflexivity. }
    assert (AL : forall y, allocated s y -> allocated (alloc1 (x, at_) s) y).
    { intros y [(z & k & Z & K & ->)|(k & K & ->)]; [left; exists z, k|right; exists k]; repeat split; auto; try apply Z.
      rewrite count_alloc1. lia. }
    split; [cbn; congruence|]. split; [cbn [forallb]; unfold rho; rewrite mk_variable by apply LX; exact C|]. split; [|split].
    + constructor; [|exact D]. intro I. apply (E _ I). left. exists x, (count s x). split; [exact LX|]. split; [|reflexivity].
      rewrite count_alloc1, ins_in by (left; reflexivity). lia.
    + intros y [<-|I]; [apply rho_fresh, LX|]. intro Y. exact (E y I (AL y Y)).
    + intros [I|I]; [exact (mk_not_discard _ _ (proj1 LX) I)|exact (F I)].
Qed.

(** ** The forms of a function *)

Definition docs (m : module) (f : module_fn) : list top :=
  if m_internal m || is_internal (mf_publicity f) then [Doc DocFalse]
  else match mf_documentation f with Some ((_ :: _) as d) => [Doc (DocString d)] | _ => [] end.
Definition ftops (m : module) (lines : N -> N) (f : module_fn) (ps : list text) (ns : list node) : list top :=
  let v := spec_variable (mf_types f ++ [mf_return f]) in
  [AtFile (escaped_path (m_path m)) (m_path m) (lines (mf_start f));
   Spec (exported_name (name_of f)) (map (erlang_type v (m_name m)) (mf_types f)) (erlang_type v (m_name m) (mf_return f))] ++
  docs m f ++ [Function_ (exported_name (name_of f)) ps ns].
Definition code_ok (m : module) (lines : N -> N) (f : module_fn) (ps : list text) (ns : list node) : Prop :=
  match mf_external f with
  | None =>
      let c := Context (m_name m) (escaped_path (m_path m)) (name_of f) lines in
      ps = parameter_names (State [] [] 0) (f_arguments (mf_function f)) /\
      exists s1, t_body c (t_expression c) (f_body (mf_function f))
        (alloc (arguments_bound (f_arguments (mf_function f))) (State [] [] 0)) = Some (ns, s1)
  | Some (em, en) =>
      NoDup ps /\ ~ In (str "_") ps /\ ns = [NRemote (erlang_module_name em) en (map NVar ps)]
  end.
Definition code_b (m : module) (f : module_fn) : bool :=
  mf_supports_erlang f && negb (existsb (N.eqb (mf_start f)) (m_unused m)) &&
  match mf_external f with Some _ => negb (is_private (mf_publicity f)) | None => true end.
Lemma unused_in m f : existsb (N.eqb (mf_start f)) (m_unused m) = true <-> In (mf_start f) (m_unused m).
Proof.
  rewrite existsb_exists. split; [intros (x & I & E); apply N.eqb_eq in E; subst; exact I|].
  intro I. exists (mf_start f). split; [exact I|apply N.eqb_refl].
Qed.
Lemma code_b_spec m f : code_b m f = true <-> has_code m f.
Proof.
  unfold code_b, has_code. rewrite ! andb_true_iff, negb_true_iff. rewrite <- unused_in.
  destruct (existsb _ _); destruct (mf_external f); destruct (mf_publicity f); cbn; intuition congruence.
Qed.
Lemma function_none m lines f : ~ has_code m f -> function_forms m lines f = Some [].
Proof.
  rewrite <- code_b_spec. unfold code_b, function_forms. destruct (existsb _ _); [reflexivity|].
  destruct (mf_external f); [destruct (is_private _)|]; destruct (mf_supports_erlang f); try reflexivity; intro H; exfalso; apply H; reflexivity.
Qed.
Lemma docs_are m f : function_doc_attribute m f = flat_map top_calls (docs m f).
Proof. unfold function_doc_attribute, docs. destruct (_ || _); [reflexivity|]. destruct (mf_documentation f) as [[|]|]; reflexivity. Qed.
Lemma docs_wf m f : each top_wf (docs m f).
Proof. unfold docs. destruct (_ || _); [cbn; auto|]. destruct (mf_documentation f) as [[|]|]; cbn; auto. Qed.
Lemma each_app {A} (P : A -> Prop) a b : each P a -> each P b -> each P (a ++ b).
Proof. rewrite ! each_Forall. intros. apply Forall_app. auto. Qed.

Lemma function_some m lines f : legal_module m -> In f (m_functions m) -> has_code m f ->
  exists ps ns, function_forms m lines f = Some (flat_map top_calls (ftops m lines f ps ns)) /\
    each top_wf (ftops m lines f ps ns) /\ length ps = arity_of f /\ code_ok m lines f ps ns.
Proof.
  intros (MN & MP & _ & _ & MF) IN C. destruct (MF f IN) as [VN LF]. specialize (LF C). destruct LF as (LEN & PT & PR & LT & LR & LE).
  destruct (name_chars _ MN) as [PM _]. destruct (escaped_pieces _ MP) as (UP & CP & QP).
  assert (X : exists ps ns, 
    match mf_external f with
    | None => module_function (m_name m) (escaped_path (m_path m)) lines (mf_function f)
    | Some (em, en) =>
        match external_arguments_names (f_arguments (mf_function f)) (State [] [] 0) with
        | Some (xs, _) =>
            Some ([start_function (escape_erlang_existing_name (f_name (mf_function f))) (N.of_nat (length (f_arguments (mf_function f)))) xs;
                   start_remote_call (erlang_module_name em) en] ++ map variable xs ++ [end_call; end_function])
        | None => None
        end
    end = Some (top_calls (Function_ (exported_name (name_of f)) ps ns)) /\
    top_wf (Function_ (exported_name (name_of f)) ps ns) /\ length ps = arity_of f /\ code_ok m lines f ps ns).
  { unfold code_ok. destruct (mf_external f) as [[em en]|].
    - destruct LE as (_ & F & AM & AN).
      destruct (external_names (f_arguments (mf_function f)) (State [] [] 0) (proj1 F) (fun x X => fresh_legal _ _ _ F X)) as (xs & s' & E & L & V & N & _ & D).
      exists xs, [NRemote (erlang_module_name em) en (map NVar xs)]. rewrite E. split; [|split; [|split; [exact L|auto]]].
      + f_equal. cbn [top_calls flat_map calls]. rewrite escape_is, L, app_nil_r. cbn [app]. do 2 f_equal. rewrite <- app_assoc. f_equal.
        clear. induction xs as [|x xs IH]; [reflexivity|]. cbn. rewrite <- IH. reflexivity.
      + cbn [top_wf each wf]. repeat split; auto; [apply exported_atom, VN|discriminate|apply module_atom, AM|].
        apply each_Forall, Forall_forall. intros n J. apply in_map_iff in J as (x & <- & J). rewrite forallb_forall in V. exact (V x J).
    - destruct (function_wf (m_name m) (escaped_path (m_path m)) lines (mf_function f) LE) as (ns & s1 & T & TF & W); [unfold literal_text; rewrite UP; exact CP|exact PM|].
      eexists _, ns. split; [rewrite function_carries, TF; reflexivity|]. split; [exact W|]. split; [unfold parameter_names; apply map_length|].
      split; [reflexivity|]. exists s1. exact T. }
  destruct X as (ps & ns & E & W & L & K). exists ps, ns. split; [|split; [|split; [exact L|exact K]]].
  - unfold function_forms. apply code_b_spec in C. unfold code_b in C. apply andb_true_iff in C as [C C3]. apply andb_true_iff in C as [C1 C2].
    apply negb_true_iff in C2. rewrite C2, C1.
    replace (match mf_external f with Some _ => is_private (mf_publicity f) | None => false end) with false
      by (destruct (mf_external f); [apply negb_true_iff in C3|]; congruence).
    cbn [negb]. rewrite (spec_is (m_name m) _ _ _ PT PR), E. rewrite docs_are. unfold ftops. rewrite ! flat_map_app. cbn [flat_map]. rewrite ! app_nil_r.
    rewrite <- ! app_assoc. reflexivity.
  - unfold ftops. apply each_app; [|apply each_app; [apply docs_wf|split; [exact W|exact I]]].
    cbn [each top_wf]. split; [exact QP|]. split; [|exact I]. split; [apply exported_atom, VN|].
    assert (V : forall x, type_wf (spec_variable (mf_types f ++ [mf_return f]) x)) by (intro; apply spec_variable_wf).
    split; [|apply legal_wf; assumption].
    apply each_Forall, Forall_forall. intros y J. apply in_map_iff in J as (s & <- & J). rewrite Forall_forall in LT. apply legal_wf; auto.
Qed.

(** ** All functions *)

Definition coded_ok (m : module) (lines : N -> N) (f : module_fn) (t : list top) : Prop :=
  exists ps ns, t = ftops m lines f ps ns /\ length ps = arity_of f /\ code_ok m lines f ps ns.
Lemma functions_some m lines : legal_module m -> forall l, incl l (m_functions m) ->
  exists coded ts, chosen (has_code m) l coded /\ Forall2 (coded_ok m lines) coded ts /\
    functions_forms m lines l = Some (flat_map top_calls (concat ts)) /\ each top_wf (concat ts).
Proof.
  intros LM. induction l as [|f l IH]; intro IN.
  - exists [], []. split; [constructor|]. split; [constructor|]. split; [reflexivity|exact I].
  - destruct (IH (fun x X => IN x (or_intror X))) as (coded & ts & C & F & E & W). cbn [functions_forms]. rewrite E.
    destruct (code_b m f) eqn:B.
    + apply code_b_spec in B. destruct (function_some m lines f LM (IN f (or_introl eq_refl)) B) as (ps & ns & E1 & W1 & L1 & K1).
      exists (f :: coded), (ftops m lines f ps ns :: ts). split; [apply chosen_yes; assumption|]. split; [constructor; [|exact F]; exists ps, ns; auto|].
      cbn [concat]. rewrite E1, flat_map_app. split; [reflexivity|apply each_app; assumption].
    + assert (NB : ~ has_code m f) by (rewrite <- code_b_spec; congruence). exists coded, ts.
      split; [apply chosen_no; assumption|]. split; [exact F|]. rewrite (function_none m lines f NB). split; [reflexivity|exact W].
Qed.

(** ** What is exported *)

Section ConstantInduction.
Context (P : constant -> Prop).
Context (P_literal : P CLiteral) (P_tuple : forall l, Forall P l -> P (CTuple l))
  (P_list : forall l t, Forall P l -> maybe P t -> P (CList l t))
  (P_record : forall l, maybe (Forall P) l -> P (CRecord l))
  (P_operator : forall a b, P a -> P b -> P (CBinaryOperator a b))
  (P_function : forall n m f e, P (CFunction n m f e)) (P_constant : forall n b c, P c -> P (CConstant n b c)).
Fixpoint constant_rect' (c : constant) : P c :=
  match c with
  | CLiteral => P_literal
  | CTuple l => P_tuple l (list_all _ constant_rect' l)
  | CList l t =>
      P_list l t (list_all _ constant_rect' l)
        match t as t0 return maybe P t0 with Some c => constant_rect' c | None => I end
  | CRecord l =>
      P_record l match l as l0 return maybe (Forall P) l0 with
                 | Some l => list_all _ constant_rect' l | None => I end
  | CBinaryOperator a b => P_operator a b (constant_rect' a) (constant_rect' b)
  | CFunction n m f e => P_function n m f e
  | CConstant n b c => P_constant n b c (constant_rect' c)
  end.
End ConstantInduction.

Definition named_in (c : constant) (x : text) : Prop :=
  exists d, mentions c d /\ ((exists mo f e, d = CFunction x mo f e) \/ (exists v, d = CConstant x true v)).
Lemma referenced c x : In x (find_referenced_private_functions c) <-> named_in c x.
Proof.
  assert (L : forall l, Forall (fun c => In x (find_referenced_private_functions c) -> named_in c x) l ->
    In x (flat_map find_referenced_private_functions l) -> exists c, In c l /\ named_in c x).
  { intros l F H. apply in_flat_map in H as (d & I & H). rewrite Forall_forall in F. exists d. split; [exact I|exact (F d I H)]. }
  split.
  - pattern c. apply constant_rect'; clear c; cbn [find_referenced_private_functions].
    + intros [].
    + intros l F H. destruct (L l F H) as (c & I & d & M & D). exists d. split; [eapply mentions_tuple; eassumption|exact D].
    + intros l t F T H. apply in_app_iff in H as [H|H].
      * destruct (L l F H) as (c & I & d & M & D). exists d. split; [eapply mentions_element; eassumption|exact D].
      * destruct t as [c|]; [|destruct H]. destruct (T H) as (d & M & D). exists d. split; [apply mentions_tail, M|exact D].
    + intros [l|] F H; [|destruct H]. destruct (L l F H) as (c & I & d & M & D). exists d. split; [eapply mentions_argument; eassumption|exact D].
    + intros a b A B H. apply in_app_iff in H as [H|H].
      * destruct (A H) as (d & M & D). exists d. split; [apply mentions_left, M|exact D].
      * destruct (B H) as (d & M & D). exists d. split; [apply mentions_right, M|exact D].
    + intros n m f e [<-|[]]. exists (CFunction n m f e). split; [constructor|eauto].
    + intros n [] c _ H; [|destruct H]. destruct H as [<-|[]]. eexists. split; [apply mentions_constant|eauto].
  - intros (d & M & D). induction M; cbn [find_referenced_private_functions].
    + destruct D as [(mo & g & e & [= -> -> -> ->])|(v & D)]; [left; reflexivity|discriminate D].
    + destruct D as [(mo & g & e & D)|(v & [= -> -> ->])]; [discriminate D|left; reflexivity].
    + apply in_flat_map. eauto.
    + apply in_or_app. left. apply in_flat_map. eauto.
    + apply in_or_app. right. apply IHM, D.
    + apply in_flat_map. eauto.
    + apply in_or_app. left. apply IHM, D.
    + apply in_or_app. right. apply IHM, D.
Qed.
Lemma writes_in m x : In x (overridden_publicity m) <-> writes m x.
Proof.
  unfold overridden_publicity, writes. rewrite in_flat_map. split.
  - intros ([p c] & I & H). destruct (is_importable p) eqn:P; [|destruct H]. apply referenced in H. destruct H as (d & M & D).
    exists p, c. split; [exact I|]. split; [intros ->; discriminate P|].
    destruct D as [(mo & f & e & ->)|(v & ->)]; [left; eauto|right; eauto].
  - intros (p & c & I & P & D). exists (p, c). split; [exact I|]. replace (is_importable p) with true by (destruct p; [reflexivity|contradiction P; reflexivity|reflexivity]).
    apply referenced. destruct D as [(mo & f & e & D)|(v & D)]; eexists; (split; [exact D|eauto]).
Qed.
Lemma export_some m f : is_exported m f -> function_export (overridden_publicity m) f = Some (signature f).
Proof.
  intros [S X]. unfold function_export. rewrite S. cbn [negb].
  replace (negb (is_importable (mf_publicity f)) && _) with false; [reflexivity|]. symmetry. apply andb_false_iff. rewrite ! negb_false_iff.
  destruct X as [X|X]; [left; destruct (mf_publicity f); try reflexivity; contradiction X; reflexivity|right].
  apply writes_in in X. apply existsb_exists. exists (name_of f). split; [exact X|apply text_eqb_eq; reflexivity].
Qed.
Lemma exported_dec m f : is_exported m f \/ ~ is_exported m f.
Proof.
  unfold is_exported. rewrite <- writes_in. destruct (in_texts (name_of f) (overridden_publicity m)); destruct (mf_supports_erlang f); destruct (mf_publicity f);
    intuition congruence.
Qed.
Lemma export_none m f : ~ is_exported m f -> function_export (overridden_publicity m) f = None.
Proof.
  intro H. unfold function_export. destruct (mf_supports_erlang f) eqn:S; [|reflexivity]. cbn [negb].
  replace (negb (is_importable (mf_publicity f)) && _) with true; [reflexivity|]. symmetry. apply andb_true_iff. rewrite ! negb_true_iff. split.
  - destruct (mf_publicity f) eqn:P; try reflexivity; exfalso; apply H; split; auto; left; rewrite P; discriminate.
  - apply not_true_is_false. intro E. apply existsb_exists in E as (y & Y & E). apply text_eqb_eq in E. change (f_name (mf_function f)) with (name_of f) in E. subst y.
    apply H. split; [exact S|right; apply writes_in, Y].
Qed.
Lemma exports_are m l : exists exported, chosen (is_exported m) l exported /\
  filter_map (function_export (overridden_publicity m)) l = map signature exported.
Proof.
  induction l as [|f l (r & C & E)]; [exists []; split; [constructor|reflexivity]|]. cbn [filter_map].
  destruct (exported_dec m f) as [X|X].
  - exists (f :: r). split; [apply chosen_yes; assumption|]. rewrite (export_some m f X), E. reflexivity.
  - exists r. split; [apply chosen_no; assumption|]. rewrite (export_none m f X), E. reflexivity.
Qed.
Lemma chosen_in {A} (P : A -> Prop) l r : chosen P l r -> forall a, In a r <-> In a l /\ P a.
Proof.
  induction 1 as [|b l r Pb C IH|b l r Pb C IH]; intro a; cbn; [tauto| |]; rewrite IH; [|intuition congruence].
  split; [intros [->|]; tauto|]. tauto.
Qed.

(** ** The module *)

Lemma join_is l : l <> [] -> join l = tl (flat_map (fun t => 10%N :: t) l).
Proof.
  intro N. destruct l as [|a l]; [contradiction|]. cbn [flat_map tl app]. clear N. revert a. induction l as [|b l IH]; intro a; [cbn; rewrite app_nil_r; reflexivity|].
  cbn [join]. cbn [join] in IH. rewrite IH. reflexivity.
Qed.
Definition moduledocs (m : module) : list top :=
  if m_internal m then [Moduledoc DocFalse]
  else match m_documentation m with [] => [] | l => [Moduledoc (DocString (join l))] end.
Definition compile_options : list text :=
  map str ["no_auto_import"; "nowarn_ignored"; "nowarn_unused_vars"; "nowarn_unused_function"; "nowarn_nomatch"; "inline"]%string.
Definition type_exports (m : module) : list (text * N) :=
  map (fun c => (erlang_name (ct_name c), N.of_nat (length (ct_parameters c)))) (m_types m).
Definition type_top (here : text) (c : custom_type) (d : top) : Prop :=
  exists ps unused, proper_definition c ps /\ NoDup unused /\
    (forall n, In n unused <-> exists x, n = id_to_type_var_str x /\ phantom c x) /\ d = type_meaning_of here ps unused c.
Lemma types_some here l : Forall (fun c => legal_definition c /\ exists ps, proper_definition c ps) l ->
  exists ds, type_definitions here l = Some (flat_map top_calls ds) /\ Forall top_wf ds /\ Forall2 (type_top here) l ds.
Proof.
  induction 1 as [|c l (L & ps & P) F (ds & E & W & T)]; [exists []; repeat split; constructor|].
  exists (type_meaning_of here ps (phantom_type_variables c) c :: ds). cbn [type_definitions flat_map]. rewrite (definition_is here c ps P), E.
  split; [reflexivity|]. split; [constructor; [apply (definition_wf here c ps P L)|exact W]|]. constructor; [|exact T].
  exists ps, (phantom_type_variables c). destruct (phantoms c ps P) as (G & H & _). auto.
Qed.
Lemma lines_two a b : Forall (fun t => ends_line t = true) a -> Forall (fun t => begins_line t = true) b -> lines (filter written (a ++ b)).
Proof.
  intros A B. assert (G : lines (filter written b)).
  { induction B as [|t b H B IH]; [exact I|]. cbn [filter]. destruct (written t); [|exact IH].
    assert (K : Forall (fun t => begins_line t = true) (filter written b)) by (apply Forall_forall; intros x X; apply filter_In in X as [X _]; rewrite Forall_forall in B; auto).
    destruct (filter written b) as [|g r]; [exact I|]. inversion K; subst. split; [right; assumption|exact IH]. }
  induction A as [|t a H A IH]; [exact G|]. cbn [app filter]. destruct (written t); [|exact IH].
  destruct (filter written (a ++ b)) as [|g r]; [exact I|]. split; [left; exact H|exact IH].
Qed.
Lemma ftops_begin m lines f ps ns : Forall (fun t => begins_line t = true) (ftops m lines f ps ns).
Proof.
  unfold ftops, docs. repeat (constructor; [reflexivity|]). apply Forall_app. split; [|repeat constructor].
  destruct (_ || _); [repeat constructor|]. destruct (mf_documentation f) as [[|]|]; repeat constructor.
Qed.
Definition all_tops (m : module) (exported : list module_fn) (ds : list top) (ts : list (list top)) : list top :=
  ([Compile compile_options; Export (map signature exported); ExportType (type_exports m)] ++ moduledocs m) ++ ds ++ concat ts.
Theorem module_generates m lines : legal_module m -> exists exported ds coded ts t,
  chosen (is_exported m) (m_functions m) exported /\ Forall2 (type_top (m_name m)) (m_types m) ds /\
  chosen (has_code m) (m_functions m) coded /\ Forall2 (coded_ok m lines) coded ts /\
  generated_module m lines = Some t /\
  forall fs, reads t fs <-> fs = FAttribute (str "module") [EAtom (erlang_module_name (m_name m))] :: flat_map top_meaning (all_tops m exported ds ts).
Proof.
  intro LM. assert (LM' := LM). destruct LM' as (MN & MP & MT & MD & MF).
  destruct (exports_are m (m_functions m)) as (exported & CE & EE). destruct (types_some (m_name m) _ MT) as (ds & ET & WT & FT).
  destruct (functions_some m lines LM (m_functions m) (incl_refl _)) as (coded & ts & CC & FC & EC & WC).
  assert (DOC : module_document m lines = Some (flat_map top_calls (all_tops m exported ds ts))).
  { unfold module_document. rewrite ET, EC, EE. f_equal. unfold all_tops. rewrite ! flat_map_app. cbn [flat_map top_calls app]. do 2 f_equal.
    replace (map type_export (m_types m)) with (type_exports m)
      by (apply map_ext; intro c; unfold type_export; rewrite safe_name; reflexivity).
    f_equal. f_equal. unfold module_documentation, moduledocs. destruct (m_internal m); [reflexivity|]. destruct (m_documentation m); reflexivity. }
  assert (W : module_wf (all_tops m exported ds ts)).
  { split.
    - unfold all_tops. apply each_app; [apply each_app|apply each_app; [apply each_Forall, WT|exact WC]].
      + split; [cbn; repeat (split; [repeat split; reflexivity|]); exact I|]. split; [|split; [|exact I]].
        * cbn [top_wf]. apply forallb_forall. intros p I. apply in_map_iff in I as (f & <- & I). apply (chosen_in _ _ _ CE) in I as [I _].
          apply exported_atom, (MF f I).
        * cbn [top_wf]. apply forallb_forall. intros p I. apply in_map_iff in I as (c & <- & I). rewrite Forall_forall in MT. destruct (MT c I) as [L _].
          apply name_atom, L.
      + unfold moduledocs. destruct (m_internal m); [cbn; auto|]. destruct (m_documentation m); cbn; auto.
    - apply lines_two.
      + repeat (constructor; [reflexivity|]). unfold moduledocs. destruct (m_internal m); [repeat constructor|]. destruct (m_documentation m); repeat constructor.
      + apply Forall_app. split.
        * clear - FT. induction FT as [|c d l ds (ps & unused & _ & _ & _ & ->) F IH]; constructor; [reflexivity|exact IH].
        * clear - FC. induction FC as [|f t l ts (ps & ns & -> & _) F IH]; [constructor|]. cbn [concat]. apply Forall_app. split; [apply ftops_begin|exact IH]. }
  destruct (name_chars _ MN) as [_ MA].
  destruct (module_reads (Some (erlang_module_name (m_name m))) _ (module_atom _ MA) W) as (t & B & R).
  exists exported, ds, coded, ts, t. repeat (split; [assumption|]). split; [unfold generated_module; rewrite DOC; exact B|].
  intro fs. split; [intro H; exact (reads_once _ _ _ H R)|intros ->; exact R].
Qed.
Definition module_forms (m : module) (exported : list module_fn) (ds : list top) (ts : list (list top)) : list form :=
  FAttribute (str "module") [EAtom (erlang_module_name (m_name m))] :: flat_map top_meaning (all_tops m exported ds ts).

Lemma docs_meaning m f : flat_map top_meaning (docs m f) = doc_forms m f.
Proof.
  unfold docs, doc_forms, documentation. change (is_internal (mf_publicity f)) with (match mf_publicity f with Internal => true | _ => false end).
  destruct (_ || _); [reflexivity|]. destruct (mf_documentation f) as [[|]|]; reflexivity.
Qed.
Lemma ftops_meaning m lines f ps ns : flat_map top_meaning (ftops m lines f ps ns) = function_form m lines f (map EVar ps) (map meaning ns).
Proof.
  unfold ftops, function_form, spec_form. rewrite ! flat_map_app. cbn [flat_map top_meaning app]. rewrite docs_meaning, map_map. reflexivity.
Qed.
Lemma forms_described m lines exported ds coded ts :
  chosen (is_exported m) (m_functions m) exported -> Forall2 (type_top (m_name m)) (m_types m) ds ->
  chosen (has_code m) (m_functions m) coded -> Forall2 (coded_ok m lines) coded ts ->
  described m lines (module_forms m exported ds ts).
Proof.
  intros CE FT CC FC. exists exported, (flat_map top_meaning ds), coded, (map (flat_map top_meaning) ts).
  split; [exact CE|]. split; [|split; [exact CC|split]].
  - clear - FT. induction FT as [|c d l ds (ps & unused & P & N & H & ->) F IH]; [constructor|]. cbn [flat_map type_meaning_of top_meaning app].
    constructor; [|exact IH]. exists ps, unused. repeat (split; [assumption|]). reflexivity.
  - clear - FC. induction FC as [|f t l ts (ps & ns & -> & L & _) F IH]; [constructor|]. cbn [map]. constructor; [|exact IH].
    exists (map EVar ps), (map meaning ns). split; [rewrite map_length; exact L|apply ftops_meaning].
  - replace (exporting "export" (map signature exported)) with (top_meaning (Export (map signature exported))) by (destruct exported; reflexivity).
    replace (exporting "export_type" _) with (top_meaning (ExportType (type_exports m))) by (unfold type_exports; destruct (m_types m); reflexivity).
    replace (moduledoc_forms m) with (flat_map top_meaning (moduledocs m)).
    2:{ unfold moduledocs, moduledoc_forms. destruct (m_internal m); [reflexivity|]. destruct (m_documentation m) as [|a l] eqn:E; [reflexivity|].
        cbn [flat_map top_meaning app doc_meaning]. rewrite join_is by discriminate. reflexivity. }
    replace (concat (map (flat_map top_meaning) ts)) with (flat_map top_meaning (concat ts)).
    2:{ clear. induction ts as [|t ts IH]; [reflexivity|]. cbn [concat map]. rewrite flat_map_app, IH. reflexivity. }
    unfold module_forms, all_tops. rewrite ! flat_map_app. cbn [flat_map]. rewrite app_nil_r, <- ! app_assoc. reflexivity.
Qed.

(** *** Definitions of functions *)

Definition named_form (f : form) : list text := match f with FFunction g _ _ => [g] | _ => [] end.
Lemma definition_in forms : forall g ps body, NoDup (flat_map named_form forms) -> In (FFunction g ps body) forms ->
  definition forms g (length ps) = Some (ps, body).
Proof.
  induction forms as [|x forms IH]; intros g ps body N I; [destruct I|]. destruct I as [->|I].
  - cbn [definition]. replace (text_eqb g g) with true by (symmetry; apply text_eqb_eq; reflexivity). rewrite Nat.eqb_refl. reflexivity.
  - destruct x; cbn [flat_map named_form app] in N; cbn [definition]; try (apply IH; assumption).
    inversion N as [|? ? NX N']; subst. replace (text_eqb g _) with false; [cbn [andb]; apply IH; assumption|].
    symmetry. apply not_true_is_false. intro E. apply text_eqb_eq in E. subst. apply NX. apply in_flat_map. eexists. split; [exact I|left; reflexivity].
Qed.
Lemma form_names m lines coded ts ds exported : Forall2 (type_top (m_name m)) (m_types m) ds -> Forall2 (coded_ok m lines) coded ts ->
  flat_map named_form (module_forms m exported ds ts) = map (fun f => exported_name (name_of f)) coded.
Proof.
  intros FT FC. unfold module_forms, all_tops. rewrite ! flat_map_app. cbn [flat_map app named_form]. rewrite ! flat_map_app.
  replace (flat_map named_form (flat_map top_meaning (moduledocs m))) with (@nil text)
    by (unfold moduledocs; destruct (m_internal m); [reflexivity|]; destruct (m_documentation m); reflexivity).
  replace (flat_map named_form (flat_map top_meaning ds)) with (@nil text)
    by (clear - FT; induction FT as [|c d l ds (ps & unused & _ & _ & _ & ->) F IH]; [reflexivity|]; cbn; exact IH).
  replace (flat_map named_form (top_meaning (Export (map signature exported)))) with (@nil text) by (destruct exported; reflexivity).
  replace (flat_map named_form (top_meaning (ExportType (type_exports m)))) with (@nil text) by (unfold type_exports; destruct (m_types m); reflexivity).
  cbn [top_meaning flat_map named_form app].
  clear - FC. induction FC as [|f t l ts (ps & ns & -> & L & _) F IH]; [reflexivity|]. cbn [concat map]. rewrite flat_map_app, flat_map_app, IH, ftops_meaning.
  unfold function_form. rewrite ! flat_map_app. cbn [flat_map named_form app].
  replace (flat_map named_form (doc_forms m f)) with (@nil text); [reflexivity|].
  unfold doc_forms, documentation. destruct (_ || _); [reflexivity|]. destruct (mf_documentation f) as [[|]|]; reflexivity.
Qed.
Lemma chosen_map_NoDup {A B} (P : A -> Prop) (g : A -> B) l r : chosen P l r -> NoDup (map g l) -> NoDup (map g r).
Proof.
  induction 1 as [|a l r Pa C IH|a l r Pa C IH]; intro N; [constructor| |]; cbn [map] in N; inversion N as [|? ? NX N']; subst; [|auto].
  cbn [map]. constructor; [|auto]. intro I. apply in_map_iff in I as (x & E & I). apply (chosen_in _ _ _ C) in I as [I _]. apply NX. rewrite <- E. apply in_map, I.
Qed.
Lemma definition_of m lines exported ds coded ts f : legal_module m ->
  Forall2 (type_top (m_name m)) (m_types m) ds -> chosen (has_code m) (m_functions m) coded -> Forall2 (coded_ok m lines) coded ts ->
  In f (m_functions m) -> has_code m f ->
  exists ps ns, code_ok m lines f ps ns /\ length ps = arity_of f /\
    definition (module_forms m exported ds ts) (exported_name (name_of f)) (arity_of f) = Some (map EVar ps, map meaning ns).
Proof.
  intros (_ & _ & _ & ND & MF) FT CC FC IN HC.
  assert (IC : In f coded) by (apply (chosen_in _ _ _ CC); auto).
  assert (X : exists ps ns, In (ftops m lines f ps ns) ts /\ length ps = arity_of f /\ code_ok m lines f ps ns).
  { clear - FC IC. induction FC as [|g t l ts (ps & ns & -> & L & K) F IH]; [destruct IC|]. destruct IC as [->|IC].
    - exists ps, ns. split; [left; reflexivity|auto].
    - destruct (IH IC) as (ps' & ns' & A & B). exists ps', ns'. split; [right; exact A|exact B]. }
  destruct X as (ps & ns & I & L & K). exists ps, ns. split; [exact K|]. split; [exact L|].
  rewrite <- L, <- (map_length EVar ps). apply definition_in.
  - rewrite (form_names m lines coded ts ds exported FT FC).
    assert (N : NoDup (map name_of coded)) by (apply (chosen_map_NoDup _ _ _ _ CC), ND).
    assert (V : forall g, In g coded -> valid_name (name_of g) = true) by (intros g G; apply (chosen_in _ _ _ CC) in G as [G _]; apply (MF g G)).
    clear - N V. induction coded as [|g l IH]; [constructor|]. cbn [map] in *. inversion N as [|? ? NX N']; subst. constructor; [|apply IH; auto with datatypes].
    intro I. apply in_map_iff in I as (x & E & I). apply exported_injective in E; [|apply V; right; exact I|apply V; left; reflexivity].
    apply NX. rewrite <- E. apply in_map, I.
  - unfold module_forms, all_tops. right. apply in_flat_map. exists (Function_ (exported_name (name_of f)) ps ns). split; [|left; reflexivity].
    apply in_app_iff. right. apply in_app_iff. right. apply in_concat. exists (ftops m lines f ps ns). split; [exact I|].
    unfold ftops. apply in_app_iff. right. apply in_app_iff. right. left. reflexivity.
Qed.

(** ** Running *)

Lemma gleam_named m f fd : function_named (gleam_functions m) f = Some fd ->
  f_name fd = f /\ exists g, In g (m_functions m) /\ mf_function g = fd /\ has_code m g /\ mf_external g = None.
Proof.
  unfold gleam_functions. induction (m_functions m) as [|g l IH]; [discriminate|]. cbn [filter].
  destruct (_ && _) eqn:E.
  - cbn [map function_named]. destruct (text_eqb f (f_name (mf_function g))) eqn:F.
    + apply text_eqb_eq in F. intros [= <-]. split; [symmetry; exact F|]. exists g. split; [left; reflexivity|]. split; [reflexivity|].
      apply andb_true_iff in E as [E E3]. apply andb_true_iff in E as [E1 E2]. apply negb_true_iff in E2. destruct (mf_external g) eqn:X; [discriminate|].
      split; [|reflexivity]. apply code_b_spec. unfold code_b. rewrite E1, E2, X. reflexivity.
    + intro H. destruct (IH H) as (A & g' & B & C). split; [exact A|]. exists g'. split; [right; exact B|exact C].
  - intro H. destruct (IH H) as (A & g' & B & C). split; [exact A|]. exists g'. split; [right; exact B|exact C].
Qed.
Theorem module_runs m lines exported ds coded ts : legal_module m ->
  Forall2 (type_top (m_name m)) (m_types m) ds -> chosen (has_code m) (m_functions m) coded -> Forall2 (coded_ok m lines) coded ts ->
  forall gleam erlang n h eh f vs us r, same_world gleam erlang -> Forall2 represents vs us -> represents_past h eh ->
    applied (m_name m) lines (gleam_functions m) gleam n h (DFunction f (N.of_nat (length vs))) vs = Some r ->
    exists eh', represents_past (fst r) eh' /\
    match snd r with
    | inl v => exists u, maybe_represents v u /\ calls_to (module_forms m exported ds ts) erlang eh (exported_name f) us (eh', inl u)
    | inr e => exists u, reports maybe_represents (m_path m) (m_name m) e u /\
                         calls_to (module_forms m exported ds ts) erlang eh (exported_name f) us (eh', inr u)
    end.
Proof.
  intros LM FT CC FC gleam erlang n h eh f vs us r SW RV RP A.
  assert (LM' := LM). destruct LM' as (MN & MP & _ & _ & MF). destruct (name_chars _ MN) as [PM _]. destruct (escaped_pieces _ MP) as (UP & _ & _).
  destruct (calls_hold (m_name m) (escaped_path (m_path m)) lines (module_forms m exported ds ts) erlang (gleam_functions m) gleam
    (plain_unescaped _ PM)) with (n := n) (h := h) (eh := eh) (f := f) (vs := vs) (ts := us) (r := r) as (eh' & P & X).
  - intros g fd NG. destruct (gleam_named m g fd NG) as (NM & mf & IN & EF & HC & EX).
    destruct (MF mf IN) as [VN LF]. specialize (LF HC). destruct LF as (_ & _ & _ & _ & _ & LE). rewrite EX, EF in LE.
    split; [exact LE|]. split; [exact NM|]. unfold name_of in VN. rewrite EF, NM in VN. split; [apply plain_unescaped, valid_plain, VN|].
    destruct (definition_of m lines exported ds coded ts mf LM FT CC FC IN HC) as (ps & ns & K & L & D). unfold code_ok in K. rewrite EX in K.
    destruct K as (EP & s1 & T). unfold name_of, arity_of in *. rewrite EF, ?NM in *. subst ps. exists ns, s1. split; [exact T|exact D].
  - exact SW.
  - apply represents_rels, RV.
  - exact RP.
  - exact A.
  - rewrite UP in X. exists eh'. split; [exact P|].
    assert (VR : forall v u, vrel (m_name m) (escaped_path (m_path m)) lines v u -> maybe_represents v u) by (intros v u H F; eapply rel_represents; eassumption).
    destruct (snd r) as [v|e].
    + destruct X as (u & R & C). exists u. split; [apply VR, R|exact C].
    + destruct X as (u & (mu & details & M & D & E) & C). exists u. split; [|exact C]. exists mu, details. split; [apply VR, M|]. split; [|exact E].
      destruct (about e) as [[[v [a b]] [c d]]|]; [|exact D]. destruct D as (w & W & D). exists w. split; [apply VR, W|exact D].
Qed.
(** An external function that is not private gives its arguments on. *)
Theorem external_runs m lines exported ds coded ts : legal_module m ->
  Forall2 (type_top (m_name m)) (m_types m) ds -> chosen (has_code m) (m_functions m) coded -> Forall2 (coded_ok m lines) coded ts ->
  forall f em en, In f (m_functions m) -> has_code m f -> mf_external f = Some (em, en) -> legal_foreign (InErlang em en) ->
  forall erlang eh us u, length us = arity_of f -> erlang eh (erlang_module_name em) en us = Some u ->
  calls_to (module_forms m exported ds ts) erlang eh (exported_name (name_of f)) us ((erlang_module_name em, en, us) :: eh, inl u).
Proof.
  intros LM FT CC FC f em en IN HC EX (_ & _ & NB) erlang eh us u LEN W.
  destruct (definition_of m lines exported ds coded ts f LM FT CC FC IN HC) as (ps & ns & K & L & D). unfold code_ok in K. rewrite EX in K.
  destruct K as (N & U & ->). assert (LX : length ps = length us) by congruence.
  assert (PE := parameters_combine ps us LX N U). cbn [map meaning] in D. rewrite map_map in D.
  assert (RV := vars_run (module_forms m exported ds ts) erlang (List.combine ps us ++ []) eh ps us (combine_lookup ps us [] LX N)).
  rewrite <- LEN in D. rewrite app_nil_r in RV.
  refine (call_ref _ _ _ _ _ _ _ _ (_, inl (u, _)) D PE _). apply body_one. apply (call_remote _ _ _ _ _ _ _ _ _ _ (_, inl u) RV).
  change (fun x => meaning (NVar x)) with EVar. rewrite map_length, LX. apply call_world; [exact NB|exact W].
Qed.

(** ** Exports *)

Lemma exported_meaning_inj : forall l l', exported_meaning l = exported_meaning l' -> l = l'.
Proof.
  induction l as [|[f a] l IH]; intros [|[f' a'] l'] E; try discriminate; [reflexivity|]. cbn in E. injection E as -> -> E. f_equal. apply IH, E.
Qed.
Lemma export_form t l : In (attribute "export" (exported_meaning l)) (top_meaning t) -> t = Export l.
Proof.
  unfold attribute. destruct t as [e|e|d|d|a|w f n|n f|n a r|o n v t|n a b]; cbn [top_meaning].
  - intro X. destruct e as [|x e]; [destruct X|]. destruct X as [X|[]]. injection X as X. f_equal. apply exported_meaning_inj, X.
  - intro X. destruct e as [|x e]; [destruct X|]. destruct X as [X|[]]. discriminate X.
  - intros [X|[]]. discriminate X.
  - intros [X|[]]. discriminate X.
  - intros [X|[]]. discriminate X.
  - intros [X|[]]. discriminate X.
  - intros [X|[]]. discriminate X.
  - intros [X|[]]. discriminate X.
  - intros [X|[]]. discriminate X.
  - intros [X|[]]. discriminate X.
Qed.
Lemma forms_exports m lines exported ds coded ts :
  chosen (is_exported m) (m_functions m) exported -> Forall2 (type_top (m_name m)) (m_types m) ds ->
  chosen (has_code m) (m_functions m) coded -> Forall2 (coded_ok m lines) coded ts ->
  (forall f, In f (m_functions m) -> mf_publicity f <> Private -> ~ In (mf_start f) (m_unused m)) ->
  (forall f, In f (m_functions m) -> mf_publicity f = Private -> writes m (name_of f) ->
     ~ In (mf_start f) (m_unused m) /\ mf_external f = None) ->
  forall f arity, exports (module_forms m exported ds ts) f arity -> defines (module_forms m exported ds ts) f arity.
Proof.
  intros CE FT CC FC H1 H2 f arity (l & I & IF). unfold module_forms in I. destruct I as [I|I]; [discriminate I|].
  apply in_flat_map in I. destruct I as (t & IT & E). apply export_form in E. subst t.
  assert (L : l = map signature exported).
  { unfold all_tops in IT. apply in_app_iff in IT. destruct IT as [IT|IT].
    - apply in_app_iff in IT. destruct IT as [[IT|[IT|[IT|[]]]]|IT]; try discriminate IT; [injection IT as <-; reflexivity|].
      exfalso. unfold moduledocs in IT. destruct (m_internal m); [destruct IT as [IT|[]]; discriminate IT|].
      destruct (m_documentation m); [destruct IT|destruct IT as [IT|[]]; discriminate IT].
    - exfalso. apply in_app_iff in IT. destruct IT as [IT|IT].
      + clear - FT IT. induction FT as [|c d l0 ds0 X F IH]; [destruct IT|]. destruct IT as [->|IT]; [|apply IH, IT].
        destruct X as (ps & un & _ & _ & _ & X). unfold type_meaning_of in X. discriminate X.
      + clear - FC IT. induction FC as [|c d l0 ds0 X F IH]; [destruct IT|]. cbn [concat] in IT. apply in_app_iff in IT. destruct IT as [IT|IT]; [|apply IH, IT].
        destruct X as (ps & ns & -> & _). unfold ftops in IT. apply in_app_iff in IT. destruct IT as [[IT|[IT|[]]]|IT]; try discriminate IT.
        apply in_app_iff in IT. destruct IT as [IT|[IT|[]]]; try discriminate IT. unfold docs in IT. destruct (_ || _); [destruct IT as [IT|[]]; discriminate IT|].
        destruct (mf_documentation c) as [[|]|]; [destruct IT| |destruct IT]. destruct IT as [IT|[]]; discriminate IT. }
  subst l. apply in_map_iff in IF. destruct IF as (g & SG & IG). unfold signature in SG. injection SG as <- AR.
  assert (arity = arity_of g) by lia. subst arity. clear AR.
  apply (chosen_in _ _ _ CE) in IG. destruct IG as [IG [SE PU]].
  assert (HC : has_code m g).
  { split; [exact SE|]. destruct (mf_publicity g) eqn:P.
    - split; [apply H1; [exact IG|congruence]|right; congruence].
    - destruct PU as [PU|PU]; [destruct PU; reflexivity|]. destruct (H2 g IG P PU) as [A B]. split; [exact A|left; exact B].
    - split; [apply H1; [exact IG|congruence]|right; congruence]. }
  assert (IC : In g coded) by (apply (chosen_in _ _ _ CC); auto).
  assert (X : exists ps ns, In (ftops m lines g ps ns) ts /\ length ps = arity_of g).
  { clear - FC IC. induction FC as [|g' t l ts (ps & ns & -> & L & K) F IH]; [destruct IC|]. destruct IC as [->|IC].
    - exists ps, ns. split; [left; reflexivity|auto].
    - destruct (IH IC) as (ps' & ns' & A & B). exists ps', ns'. split; [right; exact A|exact B]. }
  destruct X as (ps & ns & I & L). exists (map EVar ps), (map meaning ns). split; [|rewrite map_length; exact L].
  right. apply in_flat_map. exists (Function_ (exported_name (name_of g)) ps ns). split; [|left; reflexivity].
  unfold all_tops. apply in_app_iff. right. apply in_app_iff. right. apply in_concat. exists (ftops m lines g ps ns). split; [exact I|].
  unfold ftops. apply in_app_iff. right. apply in_app_iff. right. left. reflexivity.
Qed.
