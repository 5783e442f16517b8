(** C65-C69: types in generated Erlang. *)
From Coq Require Import String NArith List Bool Lia ZArith ZifyBool ZifyN ZifyNat Sorted Permutation.
From Verif Require Import Text TextProofs Strings StringsSpec StringsProofs Erl ErlangSource ErlangSourceSpec
  ErlangSourceRun ErlangSourceScan ErlangSourceParse ErlangTypes ErlangTypesSpec ErlangTypesProofs ErlangTypesDefs.
Import ListNotations.
Local Open Scope nat_scope.
Local Open Scope list_scope.

Lemma reads_all name l : match name with Some a => atom_name a = true | None => True end -> module_wf l ->
  exists t, build name (flat_map top_calls l) = Some t /\
    forall m, reads t m <-> m = match name with Some a => [FAttribute (str "module") [EAtom a]] | None => [] end ++
             flat_map top_meaning l.
Proof.
  intros N W. destruct (module_reads name l N W) as (t & B & R). exists t. split; [exact B|].
  intro m. split; [intro H; eapply reads_once; eauto|intros ->; exact R].
Qed.

(** C65 *)
Theorem C65_names_are_told_apart : forall a b, id_to_type_var_str a = id_to_type_var_str b <-> a = b.
Proof. intros a b. split; [apply name_inj|intros ->; reflexivity]. Qed.
Print Assumptions C65_names_are_told_apart.
Theorem C65_names_are_variables : forall id,
  variable_name (id_to_type_var_str id) = true /\ scan (id_to_type_var_str id) = Some [TVar (id_to_type_var_str id)].
Proof.
  intro id. split; [apply name_is_variable|].
  pose proof (name_is_variable id) as V.
  assert (L := lex_var (id_to_type_var_str id) [] V eq_refl).
  apply chain_one in L; [|intro Z; rewrite Z in V; discriminate V]. apply scan_text in L. rewrite text_of_one in L. exact L.
Qed.
Print Assumptions C65_names_are_variables.
Example C65_example : map id_to_type_var_str [0; 25; 26; 51; 52; 701; 702; 18278]%N =
  map str ["A"; "Z"; "AA"; "AZ"; "BA"; "AAZ"; "ABA"; "ABBA"]%string.
Proof. reflexivity. Qed.

(** C66: a specification is that of the function's types; a variable is a variable of Erlang unless
    it is used once, and then there is none that is used once; Erlang reads just that. *)
Theorem C66_specifications : forall module name arguments return_,
  Forall proper arguments -> proper return_ ->
  let v := spec_variable (arguments ++ [return_]) in
  let l := map (erlang_type v module) arguments in
  let t := erlang_type v module return_ in
  exists calls, function_spec_attribute module name arguments return_ = Some calls /\
    calls = top_calls (Spec name l t) /\
    (forall y, type_uses y (YFun l t) <> 1) /\
    (atom_name name = true -> Forall legal arguments -> legal return_ ->
     exists text, build None calls = Some text /\
       forall m, reads text m <-> m = [FSpec name (map type_meaning l) (type_meaning t)]).
Proof.
  intros module name arguments return_ WA WR v l t. eexists. split; [apply spec_is; assumption|].
  split; [reflexivity|]. split; [intro y; apply spec_uses; assumption|].
  intros N LA LR. destruct (reads_all None [Spec name l t] I) as (text & B & R).
  - split; [|exact I]. split; [|exact I]. cbn [top_wf]. split; [exact N|].
    assert (V : forall x, type_wf (v x)) by (intro; apply spec_variable_wf).
    split; [|apply legal_wf; assumption].
    apply each_Forall, Forall_forall. intros y J. apply in_map_iff in J as (s & <- & J).
    rewrite Forall_forall in LA. apply legal_wf; auto.
  - exists text. split; [|exact R]. cbn [flat_map] in B. rewrite app_nil_r in B. exact B.
Qed.
Print Assumptions C66_specifications.

Definition prelude (name : string) (l : list gtype) : gtype := GNamed (str "gleam") (str name) l.
(** [pub fn f(a: Result(x, x), b: fn(y) -> List(y), c: #(wibble/wobble.MyList(z))) -> Pid] *)
Definition example_arguments : list gtype :=
  [prelude "Result" [GVar 0; GLink (GVar 0)]; GFn [GVar 1] (prelude "List" [GVar 1]);
   GTuple [GNamed (str "wibble/wobble") (str "MyList") [GVar 2]]].
Definition example_return : gtype := GNamed (str "m") (str "Pid") [].
Example C66_specifications_example :
  Forall proper example_arguments /\ proper example_return /\
  match function_spec_attribute (str "m") (str "f") example_arguments example_return with
  | Some calls => build None calls
  | None => None
  end =
  Some (str "
-spec f({ok, any()} | {error, any()}, fun((B) -> list(B)), {wibble@wobble:my_list(any())}) -> pid_().
").
Proof.
  split; [|split].
  - constructor; [split; [cbn; tauto|intros _; right; right; split; reflexivity]|].
    constructor; [split; [cbn; tauto|split; [cbn; tauto|intros _; right; left; split; reflexivity]]|].
    constructor; [split; [split; [cbn; tauto|discriminate]|exact I]|constructor].
  - split; [exact I|discriminate].
  - vm_compute. reflexivity.
Qed.

(** In a record every variable is [any()] and no module is the one at hand. *)
Theorem C66_records : forall name fields,
  valid_upname name = true ->
  Forall (fun '(f, t) => atom_name f = true /\ proper t /\ legal t) fields ->
  exists text, record_definition name fields = Some text /\
    forall m, reads text m <-> m =
      [FRecord (to_snake_case name)
         (map (fun '(f, t) => (f, type_meaning (erlang_type (fun _ => any_type) [] t))) fields)].
Proof.
  intros name fields N F. unfold record_definition.
  set (ys := map (fun '(f, t) => (f, erlang_type (fun _ => any_type) [] t)) fields).
  assert (E : fold_right (fun '(f, t) rest =>
      match type_ (TypeGenerator true None []) t with
      | Some field => match rest with Some rest => Some ([record_field; atom f] ++ field ++ rest) | None => None end
      | None => None
      end) (Some []) fields = Some (flat_map (fun '(f, t) => [record_field; atom f] ++ type_calls t) ys)).
  { unfold ys. clear ys. induction F as [|[f t] fields (A & P & L) F IH]; [reflexivity|].
    cbn [fold_right map flat_map]. rewrite IH, (type_is _ t P). cbn [current_module]. cbn [app].
    rewrite <- ?app_assoc. reflexivity. }
  rewrite E. destruct (reads_all None [RecordDefinition (to_snake_case name) ys] I) as (text & B & R).
  - split; [|exact I]. split; [|exact I]. cbn [top_wf]. split; [now apply snake_atom|].
    apply each_Forall. unfold ys. clear - F. induction F as [|[f t] fields (A & P & L) F IH]; constructor; [|exact IH].
    split; [exact A|]. apply legal_wf; [intros _; cbn; tauto|exact L].
  - exists text. split; [cbn [flat_map] in B; rewrite app_nil_r in B; exact B|].
    intro m. rewrite R. cbn. unfold ys. rewrite map_map.
    replace (map (fun x => let '(f, t) := let '(f, t) := x in (f, erlang_type (fun _ => any_type) [] t) in (f, type_meaning t)) fields)
      with (map (fun '(f, t) => (f, type_meaning (erlang_type (fun _ => any_type) [] t))) fields); [reflexivity|].
    apply map_ext. intros [f t]. reflexivity.
Qed.
Print Assumptions C66_records.
Example C66_records_example :
  record_definition (str "PetCat") [(str "name", GVar 1); (str "end", prelude "Result" [prelude "Nil" []; GNamed (str "a/b") (str "Cat") []])] =
  Some (str "-record(pet_cat, {
    name :: any(),
    'end' :: {ok, nil} | {error, a@b:cat()}
}).
").
Proof. vm_compute. reflexivity. Qed.

(** C67: the definitions of types: parameters in order, all of them used and nothing else; what is
    exported are the types that are defined; Erlang reads just that. *)
Theorem C67_definitions : forall here c ps, proper_definition c ps ->
  exists unused,
    type_definition here c = Some (top_calls (type_meaning_of here ps unused c)) /\
    NoDup unused /\
    (forall n, In n unused <-> exists x, n = id_to_type_var_str x /\ phantom c x) /\
    (forall n, type_uses n (definition_meaning here c unused) <> 0 <-> In n (map id_to_type_var_str ps)).
Proof.
  intros here c ps PD. exists (phantom_type_variables c). destruct (phantoms c ps PD) as (A & B & _).
  split; [apply definition_is, PD|]. repeat split; auto; try (apply A); apply (definition_uses here c ps n PD).
Qed.
Print Assumptions C67_definitions.

Theorem C67_definitions_read_back : forall here cs pss,
  atom_name here = true -> Forall2 (fun c ps => proper_definition c ps /\ legal_definition c) cs pss ->
  exists calls text ds, module_types here cs = Some calls /\ build (Some here) calls = Some text /\
    Forall2 (fun d c => exists ps unused, proper_definition c ps /\ d = type_meaning_of here ps unused c /\
      NoDup unused /\ forall n, In n unused <-> exists x, n = id_to_type_var_str x /\ phantom c x) ds cs /\
    forall m, reads text m <-> m =
      [FAttribute (str "module") [EAtom here]] ++
      top_meaning (ExportType (map (fun c => (erlang_name (ct_name c), N.of_nat (length (ct_parameters c)))) cs)) ++
      flat_map top_meaning ds.
Proof.
  intros here cs pss A F.
  set (ds := map (fun '(c, ps) => type_meaning_of here ps (phantom_type_variables c) c) (List.combine cs pss)).
  set (ex := map (fun c => (erlang_name (ct_name c), N.of_nat (length (ct_parameters c)))) cs).
  assert (E : map type_export cs = ex).
  { apply map_ext. intro c. unfold type_export. rewrite safe_name. reflexivity. }
  assert (T : type_definitions here cs = Some (flat_map top_calls ds)).
  { unfold ds. clear - F. induction F as [|c ps cs pss [P L] F IH]; [reflexivity|].
    cbn [type_definitions List.combine map flat_map]. rewrite (definition_is here c ps P), IH. reflexivity. }
  assert (W : Forall top_wf ds).
  { unfold ds. clear - F. induction F as [|c ps cs pss [P L] F IH]; constructor; [|exact IH].
    apply (definition_wf here c ps P L). }
  assert (D : Forall (fun d => ends_line d = true) ds).
  { unfold ds. apply Forall_forall. intros d I. apply in_map_iff in I as ([c ps] & <- & _). reflexivity. }
  assert (N : Forall (fun c => valid_upname (ct_name c) = true) cs).
  { clear - F. induction F as [|c ps cs pss [P L] F IH]; constructor; [apply L|exact IH]. }
  destruct (reads_all (Some here) (ExportType ex :: ds) A) as (text & B & R).
  { split.
    - split; [|apply each_Forall, W]. cbn [top_wf]. apply forallb_forall. intros p I.
      apply in_map_iff in I as (c & <- & I). rewrite Forall_forall in N. apply name_atom, N, I.
    - assert (G : forall l, Forall (fun d => ends_line d = true) l -> lines (filter written l)).
      { clear. induction 1 as [|d l H F IH]; [exact I|]. cbn [filter]. destruct (written d); [|exact IH].
        destruct (filter written l) as [|g r]; [exact I|]. split; [left; exact H|exact IH]. }
      apply G. constructor; [reflexivity|exact D]. }
  exists (export_type_attribute (map type_export cs) :: flat_map top_calls ds), text, ds.
  split; [unfold module_types; rewrite T; reflexivity|]. split; [rewrite E; exact B|]. split; [|exact R].
  unfold ds. clear - F. induction F as [|c ps cs pss [P L] F IH]; constructor; [|exact IH].
  exists ps, (phantom_type_variables c). destruct (phantoms c ps P) as (G & H & _). auto.
Qed.
Print Assumptions C67_definitions_read_back.

(** [pub type Thing(a, b, c) { Thing  Other(x: c, y: Thing(c, c, c)) }] and
    [pub opaque type List(a)]. *)
Definition thing : custom_type :=
  CustomType (str "Thing")
    [(str "Thing", []); (str "Other", [GVar 7; GNamed (str "m") (str "Thing") [GVar 7; GVar 7; GVar 7]])]
    false [GVar 5; GVar 6; GVar 7] None.
Definition list_type : custom_type := CustomType (str "List") [] true [GLink (GVar 8)] None.
Example C67_definitions_example :
  proper_definition thing [5; 6; 7]%N /\ legal_definition thing /\
  match module_types (str "m") [thing; list_type] with Some calls => build (Some (str "m")) calls | None => None end =
  Some (str "-module(m).
-export_type([thing/3, list_/1]).

-type thing(F, G, H) :: thing | {other, H, thing(H, H, H)} | {gleam_phantom, F, G}.

-opaque list_(I) :: any() | {gleam_phantom, I}.

").
Proof.
  split; [|split].
  - split; [reflexivity|]. split; [repeat (constructor; [cbn; intuition discriminate|]); constructor|].
    intros n l t [H|[H|[]]] J; injection H as <- <-; [destruct J|].
    destruct J as [<-|[<-|[]]].
    + split; [exact I|]. intros x U. cbn [uses] in U. destruct (x =? 7)%N eqn:X; [|now contradiction U].
      apply N.eqb_eq in X. subst. cbn. tauto.
    + split; [cbn; repeat split; auto; discriminate|]. intros x U. cbn in U. destruct (x =? 7)%N eqn:X; [|now contradiction U].
      apply N.eqb_eq in X. subst. cbn. tauto.
  - split; [reflexivity|]. split; [|exact I]. intros n l [H|[H|[]]]; injection H as <- <-; cbn; auto 12.
  - vm_compute. reflexivity.
Qed.

(** C68: an external type is given its parameters in order... *)
Definition external_definition (m t : text) (here : text) (c : custom_type) (ps : list N) : Prop :=
  type_definition here c = Some (top_calls
    (TypeDefinition_ (ct_opaque c) (erlang_name (ct_name c)) (map id_to_type_var_str ps)
       (YRemote (erlang_module_name m) t (map YVar (map id_to_type_var_str ps))))).
(** ... when their numbers grow and have names of the same length. *)
Lemma external_phantom c ps : proper_definition c ps -> ct_constructors c = [] ->
  in_order (map id_to_type_var_str ps) -> phantom_type_variables c = map id_to_type_var_str ps.
Proof.
  intros PD CS O. destruct (phantoms c ps PD) as (PH & ND & SO & _). destruct PD as (E & D & _).
  assert (X : forall n, In n (phantom_type_variables c) <-> In n (map id_to_type_var_str ps)).
  { intro n. rewrite PH, in_map_iff. split.
    - intros (x & -> & (t & I & P) & _). exists x. split; [reflexivity|].
      apply (in_map parameter) in I. rewrite P, E in I. apply in_map_iff in I as (y & Q & I). injection Q as <-. exact I.
    - intros (x & <- & I). exists x. split; [reflexivity|]. split.
      + assert (J : In (Some x) (map parameter (ct_parameters c))) by (rewrite E; now apply in_map).
        apply in_map_iff in J as (t & P & J). eauto.
      + rewrite CS. intros ? ? ? []. }
  assert (ND' : NoDup (map id_to_type_var_str ps)).
  { clear - D. induction D as [|x l NI D IH]; cbn; constructor; [|exact IH].
    intro I. apply in_map_iff in I as (y & H & I). apply name_inj in H. congruence. }
  pose proof (NoDup_Permutation ND ND' X) as P.
  remember (phantom_type_variables c) as a. remember (map id_to_type_var_str ps) as b.
  clear - SO O P. revert b O P. induction SO as [|x a S IH F]; intros b O P.
  - apply Permutation_nil in P. symmetry. exact P.
  - destruct O as [|y b O' G]; [apply Permutation_sym, Permutation_nil in P; discriminate P|].
    assert (x = y).
    { apply text_leb_antisym.
      - assert (I : In y (x :: a)) by (eapply Permutation_in; [symmetry; exact P|now left]).
        destruct I as [->|I]; [|rewrite Forall_forall in F; auto]. clear. induction y as [|c y IH]; [reflexivity|]. cbn. rewrite N.eqb_refl. exact IH.
      - assert (I : In x (y :: b)) by (eapply Permutation_in; [exact P|now left]).
        destruct I as [->|I]; [|rewrite Forall_forall in G; auto]. clear. induction x as [|c y IH]; [reflexivity|]. cbn. rewrite N.eqb_refl. exact IH. }
    subst y. f_equal. apply IH; [exact O'|]. eapply Permutation_cons_inv, P.
Qed.
Theorem C68_external_parameters_partial : forall here c ps m t k,
  proper_definition c ps -> ct_constructors c = [] -> ct_external c = Some (m, t) ->
  StronglySorted N.lt ps ->
  (forall x, In x ps -> (26 ^ k <= x < 26 ^ (k + 1))%N \/ (k = 0 /\ x < 26)%N) ->
  external_definition m t here c ps.
Proof.
  intros here c ps m t k PD CS EX S L. unfold external_definition. rewrite (definition_is here c ps PD).
  unfold definition_meaning. rewrite CS, EX, (external_phantom c ps PD CS); [reflexivity|].
  clear - S L. induction S as [|x l S IH F]; [constructor|]. cbn [map]. constructor.
  - apply IH. intros y I. apply L. now right.
  - apply Forall_forall. intros n I. apply in_map_iff in I as (y & <- & I).
    rewrite Forall_forall in F. apply F in I as H. apply (name_order k); [apply L; now left|apply L; now right|lia].
Qed.
Print Assumptions C68_external_parameters_partial.
Definition external_type (ps : list N) : custom_type :=
  CustomType (str "Dict") [] false (map GVar ps) (Some (str "dict", str "dict")).
Example C68_external_parameters_example :
  proper_definition (external_type [3; 4]%N) [3; 4]%N /\ external_definition (str "dict") (str "dict") (str "m") (external_type [3; 4]%N) [3; 4]%N.
Proof.
  assert (P : proper_definition (external_type [3; 4]%N) [3; 4]%N).
  { split; [reflexivity|]. split; [repeat (constructor; [cbn; intuition discriminate|]); constructor|]. intros ? ? ? []. }
  split; [exact P|]. apply (C68_external_parameters_partial _ _ _ _ _ 0%N P eq_refl eq_refl).
  - repeat constructor; lia.
  - intros x [<-|[<-|[]]]; lia.
Qed.
(** With the numbers 25 and 26 the parameters [Z] and [AA] are swapped. *)
Theorem C68_external_parameters_refuted : exists here c ps m t,
  proper_definition c ps /\ ct_constructors c = [] /\ ct_external c = Some (m, t) /\
  StronglySorted N.lt ps /\ ~ external_definition m t here c ps /\
  match type_definition here c with Some calls => build None calls | None => None end =
  Some (str "
-type dict(Z, AA) :: dict:dict(AA, Z).

").
Proof.
  exists (str "m"), (external_type [25; 26]%N), [25; 26]%N, (str "dict"), (str "dict").
  split; [|split; [reflexivity|split; [reflexivity|split; [repeat constructor; lia|split; [|vm_compute; reflexivity]]]]].
  - split; [reflexivity|]. split; [repeat (constructor; [cbn; intuition discriminate|]); constructor|]. intros ? ? ? [].
  - intro H. vm_compute in H. discriminate H.
Qed.
Print Assumptions C68_external_parameters_refuted.

(** C69: names of types and modules. *)
Lemma snake_end n : valid_upname n = true -> exists s c, to_snake_case n = s ++ [c] /\ c <> 95%N.
Proof.
  intro H. destruct (upname_words n H) as (ws & L & <-). rewrite (snake_of_words ws L).
  assert (ws <> []) by (intros ->; discriminate H). clear H.
  induction L as [|w ws [U F] L IH]; [contradiction|]. destruct ws as [|w' ws].
  - destruct w as [u r0]. cbn [snake fst snd] in *. destruct r0 as [|x r].
    + exists [], (u + 32)%N. split; [reflexivity|]. unfold is_upper in U. lia.
    + destruct (@exists_last _ (x :: r)) as (s & c & E2); [discriminate|]. rewrite E2 in *.
      exists ((u + 32)%N :: s), c. split; [reflexivity|].
      rewrite Forall_forall in F. specialize (F c). rewrite in_app_iff in F. cbn in F.
      unfold is_lower, is_digit in F. lia.
  - destruct IH as (s & c & E & N); [discriminate|].
    exists ((fst w + 32)%N :: snd w ++ 95%N :: s), c. split; [|exact N].
    change (snake (w :: w' :: ws)) with ((fst w + 32)%N :: snd w ++ 95%N :: snake (w' :: ws)).
    rewrite E, <- app_comm_cons, <- app_assoc. reflexivity.
Qed.
Theorem C69_type_names_are_told_apart : forall a b,
  valid_upname a = true -> valid_upname b = true ->
  erl_safe_type_name (to_snake_case a) = erl_safe_type_name (to_snake_case b) <-> a = b.
Proof.
  intros a b A B. split; [|intros ->; reflexivity]. rewrite !safe_name. unfold erlang_name.
  destruct (snake_end a A) as (s & c & E & NE), (snake_end b B) as (s' & c' & E' & NE').
  intro H. apply (snake_injective a b A B).
  destruct (is_in predefined (to_snake_case a) && _), (is_in predefined (to_snake_case b) && _).
  - apply app_inj_tail in H as [H _]. exact H.
  - rewrite E' in H. apply app_inj_tail in H as [_ H]. congruence.
  - rewrite E in H. apply app_inj_tail in H as [_ H]. congruence.
  - exact H.
Qed.
Print Assumptions C69_type_names_are_told_apart.
(** No type has the name of a predefined type, but for three of them. *)
Theorem C69_no_predefined_names_partial : forall n, valid_upname n = true ->
  In (erl_safe_type_name (to_snake_case n)) predefined ->
  In (to_snake_case n) forgotten.
Proof.
  intros n V I. rewrite safe_name in I. unfold erlang_name in I.
  assert (M : forall l s, In s l <-> is_in l s = true).
  { intros l s. unfold is_in. rewrite existsb_exists. split.
    - intro J. exists s. split; [exact J|apply text_eqb_refl].
    - intros (x & J & E). apply text_eqb_eq in E. subst. exact J. }
  destruct (is_in predefined (to_snake_case n)) eqn:P; cbn [andb] in I.
  - destruct (is_in forgotten (to_snake_case n)) eqn:Q; [apply M, Q|]. cbn [negb] in I. exfalso.
    assert (X : Forall (fun s => List.last s 0%N <> 95%N) predefined) by (repeat constructor; discriminate).
    rewrite Forall_forall in X. apply X in I. rewrite last_last in I. now contradiction I.
  - apply M in I. congruence.
Qed.
Print Assumptions C69_no_predefined_names_partial.
Theorem C69_no_predefined_names_refuted : exists n, valid_upname n = true /\
  In (erl_safe_type_name (to_snake_case n)) predefined.
Proof. exists (str "NonemptyMaybeImproperList"). split; [reflexivity|]. vm_compute. tauto. Qed.
Print Assumptions C69_no_predefined_names_refuted.

(** A module has the parts of its path joined with at signs; names of Gleam modules, which have
    none, are told apart. *)
Fixpoint joined (c : N) (l : list text) : text :=
  match l with [] => [] | [s] => s | s :: l => s ++ c :: joined c l end.
Theorem C69_module_names : forall l, Forall (fun s => ~ In 47%N s) l ->
  erlang_module_name (joined 47 l) = joined 64 l.
Proof.
  assert (G : forall s, ~ In 47%N s -> erlang_module_name s = s).
  { intros s H. unfold erlang_module_name. rewrite <- (map_id s) at 2. apply map_ext_in. intros c I.
    destruct (c =? 47)%N eqn:E; [|reflexivity]. apply N.eqb_eq in E. subst. contradiction. }
  induction 1 as [|s l H F IH]; [reflexivity|]. destruct l as [|s' l]; [apply G, H|].
  change (joined 47 (s :: s' :: l)) with (s ++ 47%N :: joined 47 (s' :: l)).
  unfold erlang_module_name in *. rewrite map_app. cbn [map]. rewrite IH, (G s H). reflexivity.
Qed.
Print Assumptions C69_module_names.
Theorem C69_modules_are_told_apart : forall a b, ~ In 64%N a -> ~ In 64%N b ->
  erlang_module_name a = erlang_module_name b <-> a = b.
Proof.
  intros a b A B. split; [|intros ->; reflexivity]. revert b B.
  induction a as [|x a IH]; intros [|y b] B H; try discriminate H; [reflexivity|].
  unfold erlang_module_name in *. cbn [map In] in *. injection H as H1 H2. f_equal.
  - destruct (x =? 47)%N eqn:E, (y =? 47)%N eqn:E2; lia.
  - apply IH; tauto.
Qed.
Print Assumptions C69_modules_are_told_apart.
Example C69_example : map (fun s => erl_safe_type_name (to_snake_case (str s))) ["String"; "MyType"; "PosInteger"]%string =
  map str ["string_"; "my_type"; "pos_integer_"]%string /\ erlang_module_name (str "a/b_c/d") = str "a@b_c@d".
Proof. split; reflexivity. Qed.
