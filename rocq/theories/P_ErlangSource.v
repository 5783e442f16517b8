(** C62, C63, C64: what Erlang reads in the text of the builder of Erlang source. *)
From Coq Require Import String NArith ZArith List Bool Lia ZifyBool ZifyN.
From Verif Require Import Text TextProofs StringsSpec Erl ErlangSource ErlangSourceSpec ErlangSourceRun
  ErlangSourceScan ErlangSourceParse.
Import ListNotations.
Local Open Scope nat_scope.
Local Open Scope list_scope.

Definition module_meaning (name : text) (l : list top) : list form :=
  FAttribute (str "module") [EAtom name] :: flat_map top_meaning l.

(** C62: whatever is built, no call panics and Erlang reads the module that was built, and nothing
    else.  In [module_wf] the size of a segment has no sign, no match is the operand of an
    operator, and no name has a quote or a backslash. *)
Theorem C62_source_reads_back_partial : forall name l, atom_name name = true -> module_wf l ->
  exists t, build (Some name) (flat_map top_calls l) = Some t /\
    forall m, reads t m <-> m = module_meaning name l.
Proof.
  intros name l N W. destruct (module_reads (Some name) l N W) as (t & B & R).
  exists t. split; [exact B|]. intro m. split; [intro H; apply (reads_once t); assumption|intros ->; exact R].
Qed.
Print Assumptions C62_source_reads_back_partial.

Definition text_lines (l : list string) : text := flat_map (fun s => str s ++ [10%N]) l.
Definition v (s : string) : node := NVar (str s).
(** [f(A, B) -> {X, _} = Y = #{(A - B) - A => <<"a":B/little>>}, case -1 of ... end.] *)
Definition example_module : list top :=
  [ Export [(str "f", 2%N)]; ExportType [];
    TypeDefinition_ true (str "t") [str "A"] (YUnion [YUnion [YVar (str "A"); YAtom (str "end")]; YFun [] (YNamed (str "t") [YVar (str "A")])]);
    AtFile (str "src/m.gleam") (str "src/m.gleam") 3;
    Spec (str "f") [YTuple []; YRemote (str "m") (str "t") []] (YVar (str "A"));
    Doc (DocString (str "A ""doc""."));
    Function_ (str "f") [str "A"; str "B"]
      [ NMatch (NMatch (NTuple [NVar (str "X"); NDiscard]) (NVar (str "Y")))
          (NMap [(NBinary Minus (NBinary Minus (v "A") (v "B")) (v "A"),
                  NBits [(NString (str "a") (str "a"), (Some (v "B"), [Unit 8; Little]))])]);
        NCase (NInt (-1))
          [ (NCons (NVar (str "H")) (NCons NDiscard (NVar (str "T"))), (Some (NUnary KNot (v "H")), [NNil]));
            (NDiscard, (None, [NCall (NCall (v "A") []) [NRemote (str "m") (str "g") []]; NBlock [NFun [str "Z"] [v "Z"]]])) ] ] ].
Example C62_source_reads_back_example :
  atom_name (str "m") = true /\ module_wf example_module /\
  build (Some (str "m")) (flat_map top_calls example_module) =
  Some (text_lines
   ["-module(m).";
    "-export([f/2]).";
    "";
    "-opaque t(A) :: A | 'end' | fun(() -> t(A)).";
    "";
    "-file(""src/m.gleam"", 3).";
    "-spec f({}, m:t()) -> A.";
    "-doc(~""A \""doc\""."").";
    "f(A, B) ->";
    "    {X, _} = Y = #{";
    "        (A - B) - A => <<""a"":B/little-unit:8>>";
    "    },";
    "    case -1 of";
    "        [H, _ | T] when not H ->";
    "            [];";
    "";
    "        _ ->";
    "            (A())(m:g()),";
    "            begin";
    "                fun(Z) ->";
    "                    Z";
    "                end";
    "            end";
    "    end.";
    ""]%string).
Proof.
  split; [reflexivity|]. split.
  - split; [|cbn; tauto]. repeat split; try discriminate; try reflexivity.
    repeat constructor.
    change (str "a") with ([97%N] ++ []). apply contents_piece; [constructor; discriminate|discriminate|constructor].
  - vm_compute. reflexivity.
Qed.

Lemma not_read t m m' : reads t m -> m <> m' -> ~ reads t m'.
Proof. intros R N R'. apply N, (reads_once t); assumption. Qed.

(** A negative literal as the size of a segment, as of [<<a:-1>>] with a constant for the size:
    not Erlang. *)
Definition size_module : list top :=
  [Function_ (str "f") [str "A"] [NBits [(v "A", (Some (NInt (-1)), []))]]].
Theorem C62_source_reads_back_refuted :
  exists t, build (Some (str "m")) (flat_map top_calls size_module) = Some t /\
    t = text_lines ["-module(m)."; ""; "f(A) ->"; "    <<A:-1>>."; ""]%string /\
    forall m, ~ reads t m.
Proof.
  eexists. split; [vm_compute; reflexivity|]. split; [vm_compute; reflexivity|].
  intros m (ts & S & n0 & R). vm_compute in S. injection S as <-.
  specialize (R (30 + n0) ltac:(lia)). cbn -[text_eqb str] in R.
  cbn in R. discriminate R.
Qed.
Print Assumptions C62_source_reads_back_refuted.

(** A match as an operand is written without parentheses. *)
Definition operand_module : list top :=
  [Function_ (str "f") [str "A"] [NBinary Plus (NMatch (v "B") (v "A")) (NInt 1)]].
Theorem C62_source_reads_back_refuted_by_operands :
  exists t m, build (Some (str "m")) (flat_map top_calls operand_module) = Some t /\
    reads t m /\ m <> module_meaning (str "m") operand_module.
Proof.
  eexists. exists (module_meaning (str "m") [Function_ (str "f") [str "A"] [NMatch (v "B") (NBinary Plus (v "A") (NInt 1))]]).
  split; [vm_compute; reflexivity|]. split; [|discriminate].
  eexists. split; [vm_compute; reflexivity|]. exists 30. intros n L.
  replace n with (30 + (n - 30)) by lia. generalize (n - 30). clear. intro n. reflexivity.
Qed.
Print Assumptions C62_source_reads_back_refuted_by_operands.

(** C63: the literal of a string, as an expression, a pattern and a segment, and documentation. *)
Theorem C63_strings_keep_their_text : forall written value documentation,
  contents written value ->
  exists t,
    build (Some (str "m"))
      [doc_attribute (DocString documentation); start_function (str "f") 1 [str "A"];
       match_operator; string_pattern written; string_ written;
       start_bit_array; bit_array_segment; string_ written; bit_array_segment_default_size;
       bit_array_segment_specifiers [Utf8]; end_bit_array; end_function] = Some t /\
    forall m, reads t m <-> m =
      [FAttribute (str "module") [EAtom (str "m")];
       FAttribute (str "doc") [EBinary documentation];
       FFunction (str "f") [EVar (str "A")]
         [EMatch (EBinary value) (EBinary value);
          EBits [(EString value, (None, [(str "utf8", None)]))]]].
Proof.
  intros w s d C.
  destruct (C62_source_reads_back_partial (str "m")
    [Doc (DocString d); Function_ (str "f") [str "A"]
      [NMatch (NString w s) (NString w s); NBits [(NString w s, (None, [Utf8]))]]] eq_refl) as (t & B & R).
  { split; [|cbn; tauto]. repeat split; try assumption; try discriminate; reflexivity. }
  exists t. split; [exact B|exact R].
Qed.
Print Assumptions C63_strings_keep_their_text.
Theorem C63_literals_are_one_token : forall written value, contents written value ->
  scan ([34%N] ++ escape_literal_string_content written ++ [34%N]) = Some [TString value] /\
  scan ([126; 34]%N ++ escape_literal_string_content written ++ [34%N]) = Some [TBinary value].
Proof.
  intros w s C. destruct (lex_literal w s [] C eq_refl) as [A B]. split.
  - apply chain_one in A; [|discriminate]. apply scan_text in A. rewrite text_of_one in A. exact A.
  - apply chain_one in B; [|discriminate]. apply scan_text in B. rewrite text_of_one in B. exact B.
Qed.
Print Assumptions C63_literals_are_one_token.
Example C63_strings_example :
  contents (str "\u{e9}\\u{e9}\n") [0xe9; 92; 117; 123; 101; 57; 125; 10]%N /\
  escape_literal_string_content (str "\u{e9}\\u{e9}\n") = str "\x{e9}\\u{e9}\n".
Proof.
  split; [|reflexivity].
  assert (D : denotes (str "e9") 0xe9).
  { apply (more_digits 101 14 [57%N] 9); [reflexivity|]. constructor. reflexivity. }
  change (str "\u{e9}\\u{e9}\n") with
    ((str "\u{" ++ str "e9" ++ str "}") ++ str "\\" ++ [117%N] ++ [123%N] ++ [101%N] ++ [57%N] ++ [125%N] ++ str "\n" ++ []).
  repeat (apply contents_piece; [|discriminate|]); try (constructor; discriminate); try constructor.
  - exact D.
  - left. reflexivity.
Qed.

(** C64: a name without quotes and backslashes, and no other, is read back. *)
Lemma quoted_length t : forall q m s r, quoted q m t = Some (s, r) -> length s + length r + 1 <= length t.
Proof.
  induction t as [|c t IH]; intros q m s r H; [discriminate H|]. cbn [quoted length] in *.
  assert (G : forall m' x, option_map (fun '(s, r) => (x :: s, r)) (quoted q m' t) = Some (s, r) ->
    length s + length r + 1 <= S (length t)).
  { intros m' x E. destruct (quoted q m' t) as [[s' r']|] eqn:Q; [|discriminate E].
    injection E as <- <-. apply IH in Q. cbn [length]. lia. }
  destruct m.
  - destruct (c =? q)%N; [injection H as <- <-; cbn; lia|].
    destruct (c =? 92)%N; [apply IH in H; lia|eapply G, H].
  - destruct (c =? 120)%N; [apply IH in H; lia|]. destruct (_ || _); [discriminate H|eapply G, H].
  - destruct (c =? 123)%N; [apply IH in H; lia|discriminate H].
  - destruct (c =? 125)%N; [destruct (_ && _); [eapply G, H|discriminate H]|].
    destruct (hex_digit c); [apply IH in H; lia|discriminate H].
Qed.
Lemma quoted_name t : forall s, quoted 39 Plain t = Some (s, []) -> length s + 1 = length t ->
  t = s ++ [39%N] /\ atom_name s = true.
Proof.
  induction t as [|c t IH]; intros s H L; [discriminate H|]. cbn [quoted length] in *.
  destruct (c =? 39)%N eqn:E; [injection H as <- ->; apply N.eqb_eq in E; subst c; split; reflexivity|].
  destruct (c =? 92)%N eqn:E2; [apply quoted_length in H; cbn [length] in H; lia|].
  destruct (quoted 39 Plain t) as [[s' r']|] eqn:Q; [|discriminate H].
  cbn in H. injection H as <- ->. cbn [length] in L. destruct (IH s' eq_refl ltac:(lia)) as [-> A].
  split; [reflexivity|]. unfold atom_name in *. cbn [forallb]. rewrite E, E2. exact A.
Qed.
Lemma quoted_suffix t : forall q m s r, quoted q m t = Some (s, r) -> exists p, t = p ++ r.
Proof.
  induction t as [|c t IH]; intros q m s r H; [discriminate H|]. cbn [quoted] in *.
  assert (G : forall m' s', quoted q m' t = Some (s', r) -> exists p, c :: t = p ++ r).
  { intros m' s' E. apply IH in E. destruct E as (p & ->). exists (c :: p). reflexivity. }
  assert (G' : forall m' x, option_map (fun '(s, r) => (x :: s, r)) (quoted q m' t) = Some (s, r) ->
    exists p, c :: t = p ++ r).
  { intros m' x E. destruct (quoted q m' t) as [[s' r']|] eqn:Q; [|discriminate E].
    injection E as <- <-. eapply G, Q. }
  destruct m.
  - destruct (c =? q)%N; [injection H as <- <-; exists [c]; reflexivity|].
    destruct (c =? 92)%N; [eapply G, H|eapply G', H].
  - destruct (c =? 120)%N; [eapply G, H|]. destruct (_ || _); [discriminate H|eapply G', H].
  - destruct (c =? 123)%N; [eapply G, H|discriminate H].
  - destruct (c =? 125)%N; [destruct (_ && _); [eapply G', H|discriminate H]|].
    destruct (hex_digit c); [eapply G, H|discriminate H].
Qed.
Lemma scan_nothing n : forall r, scan_fuel n r = Some [] -> forallb white r = true.
Proof.
  induction n as [|n IH]; intros [|c r] H; try reflexivity; try discriminate H. cbn [scan_fuel] in H.
  destruct (lex1 (c :: r)) as [[[o|] r']|] eqn:X; [| |discriminate H].
  - destruct (scan_fuel n r'); discriminate H.
  - destruct (white c) eqn:W.
    + cbn [lex1] in X. rewrite W in X. injection X as <-. cbn [forallb]. rewrite W. apply IH.
      destruct (scan_fuel n r); [|discriminate H]. congruence.
    + exfalso. clear H. unfold lex1 in X. rewrite W in X.
      repeat match type of X with
      | Some (Some _, _) = _ => discriminate X
      | None = _ => discriminate X
      | context [match ?x with _ => _ end] =>
          match type of x with
          | option _ => destruct x as [[]|] | bool => destruct x | prod _ _ => destruct x | list _ => destruct x | text => destruct x end; cbn [option_map] in X
      | context [option_map _ ?x] => destruct x as [[]|]; cbn [option_map] in X
      end; try discriminate X.
Qed.
Theorem C64_names_read_back_partial : forall name,
  scan (quote_atom_name name) = Some [TAtom name] <-> atom_name name = true.
Proof.
  intro name. split.
  - intro H.
    assert (Q : quote_atom_name name = [39%N] ++ name ++ [39%N] -> atom_name name = true).
    { intro E. rewrite E in H. unfold scan in H. set (n := length _) in H. 
      assert (Ln : n = S (S (length name))) by (unfold n; cbn [app length]; rewrite app_length; cbn [length]; lia).
      rewrite Ln in H. clear n Ln. set (n := S (length name)) in H. clearbody n. cbn [app scan_fuel] in H.
      replace (lex1 (39%N :: name ++ [39%N])) with
        (option_map (fun '(s, r) => (Some (TAtom s), r)) (quoted 39 Plain (name ++ [39%N]))) in H by reflexivity.
      destruct (quoted 39 Plain (name ++ [39%N])) as [[s r]|] eqn:X; [|discriminate H].
      cbn [option_map] in H. destruct (scan_fuel n r) as [ts|] eqn:F; [|discriminate H].
      injection H as -> ->. pose proof (quoted_suffix _ _ _ _ _ X) as (p & P).
      apply scan_nothing in F. destruct r as [|c r] using rev_ind.
      - apply quoted_name in X; [apply X|]. rewrite app_length. reflexivity.
      - rewrite app_assoc in P. apply app_inj_tail in P. destruct P as [_ <-].
        rewrite forallb_app in F. apply andb_prop in F. destruct F as [_ F]. discriminate F. }
    unfold quote_atom_name in *. destruct (is_erlang_reserved_word name); [apply Q; reflexivity|].
    destruct (atom_name_regex name) eqn:R; [|apply Q; reflexivity].
    clear - R. destruct name as [|c a]; [discriminate R|]. cbn in R. apply andb_prop in R. destruct R as [C R].
    unfold atom_name. cbn [forallb]. apply andb_true_intro. split; [unfold is_lower in C; lia|].
    rewrite forallb_forall in *. intros x I. apply R in I. unfold is_lower, is_digit in I. lia.
  - intro A. pose proof (lex_atom name [] A eq_refl) as L.
    pose proof (chain_one (Some (TAtom name)) _ [] (quote_nonempty name) L) as K.
    apply scan_text in K. rewrite text_of_one in K. exact K.
Qed.
Print Assumptions C64_names_read_back_partial.
Theorem C64_names_read_back_refuted : exists name, scan (quote_atom_name name) <> Some [TAtom name].
Proof. exists [39%N]. rewrite C64_names_read_back_partial. discriminate. Qed.
Print Assumptions C64_names_read_back_refuted.
Example C64_names_example :
  quote_atom_name (str "maybe") = str "'maybe'" /\ quote_atom_name (str "Ok") = str "'Ok'" /\
  quote_atom_name (str "gleam@list") = str "gleam@list" /\
  quote_atom_name (str "a'b") = str "'a'b'" /\ scan (str "'a'b'") = None /\
  quote_atom_name (str "a\b") = str "'a\b'" /\ scan (str "'a\b'") = Some [TAtom [97; 8]%N].
Proof. repeat split; reflexivity. Qed.
