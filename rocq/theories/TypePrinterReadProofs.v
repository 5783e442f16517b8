(** What a printed type is written with; parsing that and finding the types. *)
From Coq Require Import String NArith List Bool Arith Lia.
From Verif Require Import Text TextProofs Lexer LexerSpec LexerWhole TypePrinter TypePrinterSpec TypePrinterLex TypePrinterScopeProofs.
Require Import ZifyBool ZifyNat ZifyN.
Import ListNotations.
Local Open Scope list_scope.
Local Open Scope nat_scope.

(** ** Pieces and trees *)
Definition sym (s : symbol) : piece := Tok (Symbol s) (symbol_text s).
Definition name_pieces (i : name_context_information) : list piece :=
  match i with
  | Unqualified a => [Tok (UpName a) a]
  | Qualified u a => [Tok (Name u) u; sym Dot; Tok (UpName a) a]
  | Unimported m a => [Tok (Name (last_segment m)) (last_segment m); sym Dot; Tok (UpName a) a]
  end.
Fixpoint commas (l : list (list piece)) : list piece :=
  match l with
  | [] => []
  | [p] => p
  | p :: l => p ++ sym Comma :: Gap [32%N] :: commas l
  end.
Definition name_module (i : name_context_information) : option text :=
  match i with Unqualified _ => None | Qualified u _ => Some u | Unimported m _ => Some (last_segment m) end.
Definition name_itself (i : name_context_information) : text :=
  match i with Unqualified a | Qualified _ a | Unimported _ a => a end.
Definition name_proper (i : name_context_information) : Prop :=
  is_a_type_name (name_itself i) /\ (forall u, name_module i = Some u -> is_a_name u).

Section Naming.
  Variable q : text -> text -> name_context_information.
  Variable name : N -> text.
  Fixpoint pieces (t : type) : list piece :=
    match t with
    | Named m n a =>
        name_pieces (q m n)
        ++ match a with [] => [] | _ => sym LeftParen :: commas (map pieces a) ++ [sym RightParen] end
    | TFn a r =>
        Tok (Keyword Fn) (str "fn") :: sym LeftParen :: commas (map pieces a)
        ++ sym RightParen :: Gap [32%N] :: sym RArrow :: Gap [32%N] :: pieces r
    | Var i => [Tok (Name (name i)) (name i)]
    | Tuple e => sym Hash :: sym LeftParen :: commas (map pieces e) ++ [sym RightParen]
    end.
  Fixpoint ast (t : type) : type_ast :=
    match t with
    | Named m n a =>
        AstConstructor (name_module (q m n)) (Some (name_itself (q m n))) (map ast a)
          (match a with [] => false | _ => true end)
    | TFn a r => AstFn (map ast a) (ast r)
    | Var i => AstVar (name i)
    | Tuple e => AstTuple (map ast e)
    end.
  Definition proper (t : type) : Prop :=
    (forall m n, mentions m n t -> name_proper (q m n)) /\ (forall i, In i (variables t) -> is_a_name (name i)).

  Lemma proper_arguments m n a t : proper (Named m n a) -> In t a -> proper t.
  Proof.
    intros [A B] I. split; [eauto using mentions_argument|]. intros i H. apply B. cbn. apply in_flat_map. eauto.
  Qed.
  Lemma proper_parameters r a t : proper (TFn a r) -> In t a -> proper t.
  Proof.
    intros [A B] I. split; [eauto using mentions_parameter|]. intros i H. apply B. cbn. apply in_app_iff. left. apply in_flat_map. eauto.
  Qed.
  Lemma proper_return r a : proper (TFn a r) -> proper r.
  Proof.
    intros [A B]. split; [eauto using mentions_return|]. intros i H. apply B. cbn. apply in_app_iff. now right.
  Qed.
  Lemma proper_elements e t : proper (Tuple e) -> In t e -> proper t.
  Proof.
    intros [A B] I. split; [eauto using mentions_element|]. intros i H. apply B. cbn. apply in_flat_map. eauto.
  Qed.

  (** *** They are spaced *)
  Definition closes (s : text) : Prop := s = [] \/ exists c r, s = c :: r /\ In c [40; 41; 44; 32; 46]%N.
  Lemma closes_apart s : closes s -> ~ followed a_word_character s /\ ~ negative_ahead s.
  Proof.
    intros [->|[c [r [-> I]]]]; cbn in *; (split; [|intros [d [r' [E _]]]; try discriminate E; try (injection E as -> ->; lia)]).
    - auto.
    - texts. lia.
  Qed.
  Lemma sym_simple s : In s [LeftParen; RightParen; Comma; Dot; RArrow; Hash] -> simple (sym s).
  Proof. apply simple_symbol. Qed.
  Lemma spaced_sym s qs : In s [LeftParen; RightParen; Comma; RArrow; Hash] -> spaced qs -> spaced (sym s :: qs).
  Proof.
    intros I S. cbn [spaced]. split; [|split; [|auto]].
    - apply sym_simple. cbn in *. tauto.
    - cbn in I. destruct I as [<-|[<-|[<-|[<-|[<-|[]]]]]]; exact Logic.I.
  Qed.
  Lemma spaced_gap qs : spaced qs -> spaced (Gap [32%N] :: qs).
  Proof. intros S. cbn. split; [constructor|]. auto. Qed.
  Lemma spaced_name u qs : is_a_name u -> spaced qs -> closes (writing qs) -> spaced (Tok (Name u) u :: qs).
  Proof. intros N S C. cbn [spaced]. split; [now constructor|]. split; [|auto]. cbn. now apply closes_apart. Qed.
  Lemma spaced_upname u qs : is_a_type_name u -> spaced qs -> closes (writing qs) -> spaced (Tok (UpName u) u :: qs).
  Proof.
    intros [c [v [-> [U F]]]] S C. cbn [spaced]. split; [now constructor|]. split; [|auto]. cbn. now apply closes_apart.
  Qed.
  Lemma spaced_named i qs : name_proper i -> spaced qs -> closes (writing qs) -> spaced (name_pieces i ++ qs).
  Proof.
    intros [A B] S C. destruct i as [m a|a|u a]; cbn [name_pieces app name_itself name_module] in *.
    - apply spaced_name; [auto| |right; eexists; eexists; split; [reflexivity|cbn; tauto]].
      cbn [spaced]. split; [apply sym_simple; cbn; tauto|]. split; [|now apply spaced_upname].
      destruct A as [c [v [-> [U F]]]]. cbn. auto.
    - now apply spaced_upname.
    - apply spaced_name; [auto| |right; eexists; eexists; split; [reflexivity|cbn; tauto]].
      cbn [spaced]. split; [apply sym_simple; cbn; tauto|]. split; [|now apply spaced_upname].
      destruct A as [c [v [-> [U F]]]]. cbn. auto.
  Qed.
  Lemma spaced_commas l : Forall (fun t => forall qs, spaced qs -> closes (writing qs) -> spaced (pieces t ++ qs)) l ->
    forall qs, spaced qs -> closes (writing qs) -> spaced (commas (map pieces l) ++ qs).
  Proof.
    induction 1 as [|t l H _ IH]; intros qs S C; [auto|]. destruct l as [|t' l]; [now apply H|].
    change (commas (map pieces (t :: t' :: l))) with (pieces t ++ sym Comma :: Gap [32%N] :: commas (map pieces (t' :: l))).
    rewrite <- app_assoc. apply H.
    - cbn [app]. apply spaced_sym; [cbn; tauto|]. apply spaced_gap. now apply IH.
    - right. eexists; eexists. split; [reflexivity|cbn; tauto].
  Qed.
  Lemma pieces_spaced t : proper t -> forall qs, spaced qs -> closes (writing qs) -> spaced (pieces t ++ qs).
  Proof.
    induction t as [m n a H|a r H Hr|i|e H] using type_induction; intros P qs S C; cbn [pieces].
    - rewrite <- app_assoc. apply spaced_named; [apply P; constructor| |].
      + destruct a as [|t a]; [auto|]. cbn [app]. apply spaced_sym; [cbn; tauto|]. rewrite <- app_assoc. apply spaced_commas.
        * rewrite Forall_forall in H |- *. intros t' I. apply H; eauto using proper_arguments.
        * apply spaced_sym; [cbn; tauto|auto].
        * right. eexists; eexists. split; [reflexivity|cbn; tauto].
      + destruct a; [auto|]. right. eexists; eexists. split; [reflexivity|cbn; tauto].
    - cbn [app]. cbn [spaced]. split; [exact (simple_word _ _ (word_keyword Fn))|]. split.
      { apply closes_apart. right. eexists; eexists. split; [reflexivity|cbn; tauto]. }
      apply spaced_sym; [cbn; tauto|]. rewrite <- app_assoc. apply spaced_commas.
      + rewrite Forall_forall in H |- *. intros t' I. apply H; eauto using proper_parameters.
      + cbn [app]. apply spaced_sym; [cbn; tauto|]. apply spaced_gap. apply spaced_sym; [cbn; tauto|]. apply spaced_gap.
        apply Hr; eauto using proper_return.
      + right. eexists; eexists. split; [reflexivity|cbn; tauto].
    - cbn [app]. apply spaced_name; auto. apply P. cbn. auto.
    - cbn [app]. apply spaced_sym; [cbn; tauto|]. apply spaced_sym; [cbn; tauto|]. rewrite <- app_assoc. apply spaced_commas.
      + rewrite Forall_forall in H |- *. intros t' I. apply H; eauto using proper_elements.
      + apply spaced_sym; [cbn; tauto|auto].
      + right. eexists; eexists. split; [reflexivity|cbn; tauto].
  Qed.

  (** *** They parse *)
  Definition ends (ts : list token) : Prop :=
    match ts with [] => True | Symbol RightParen :: _ | Symbol Comma :: _ => True | _ => False end.
  Notation toks t := (tokens (pieces t)).
  Lemma tokens_nonempty t : 1 <= length (toks t).
  Proof.
    destruct t; cbn; try lia. destruct (q module name0); cbn; lia.
  Qed.
  Lemma maybe_one_same s ts : maybe_one s (Symbol s :: ts) = Some ts.
  Proof. cbn. destruct (symbol_dec s s); congruence. Qed.
  Definition parses (t : type) : Prop := forall fuel rest, length (toks t) < fuel -> ends rest ->
    parse_type fuel (toks t ++ rest) = Some (Some (ast t), rest).
  Lemma series_parses l : Forall parses l -> forall k f rest,
    length (tokens (commas (map pieces l))) < f -> length l < k ->
    series_of k (parse_type f) (tokens (commas (map pieces l)) ++ Symbol RightParen :: rest)
    = Some (map ast l, Symbol RightParen :: rest).
  Proof.
    induction 1 as [|t l H _ IH]; intros k f rest F K.
    - destruct k as [|k]; [cbn in K; lia|]. destruct f as [|f]; [lia|]. reflexivity.
    - destruct k as [|k]; [lia|]. destruct l as [|t' l].
      + cbn [map commas] in *. cbn [series_of]. rewrite H; [|auto|exact I]. reflexivity.
      + change (commas (map pieces (t :: t' :: l))) with (pieces t ++ sym Comma :: Gap [32%N] :: commas (map pieces (t' :: l))) in *.
        rewrite tokens_app in *. rewrite app_length in F. cbn [tokens sym] in F |- *. rewrite <- app_assoc. cbn [length] in F.
        cbn [series_of]. rewrite H; [|lia|exact I]. cbn [app]. rewrite maybe_one_same.
        replace (maybe_one Comma (tokens (commas (map pieces (t' :: l))) ++ Symbol RightParen :: rest)) with (@None (list token)).
        * rewrite IH; [reflexivity|lia|cbn in K |- *; lia].
        * clear. change (map pieces (t' :: l)) with (pieces t' :: map pieces l).
          assert (E : forall r, exists x ts, tokens (commas (pieces t' :: r)) = x :: ts /\ x <> Symbol Comma).
          { intros r. assert (E : exists x ts, toks t' = x :: ts /\ x <> Symbol Comma).
            { destruct t' as [m n a|a r'|i|e]; cbn [pieces]; try (eexists; eexists; split; [reflexivity|discriminate]).
              rewrite tokens_app. destruct (q m n); eexists; eexists; (split; [reflexivity|discriminate]). }
            destruct E as [x [ts [E D]]]. destruct r as [|p r]; [exists x, ts; auto|].
            cbn [commas]. rewrite tokens_app, E. exists x. eexists. split; [reflexivity|auto]. }
          destruct (E (map pieces l)) as [x [ts [-> D]]]. cbn [app maybe_one]. destruct x as [| | | | | | | | | | |s|]; try reflexivity.
          destruct (symbol_dec Comma s) as [Es|Es]; [rewrite <- Es in D; congruence|reflexivity].
  Qed.
  Lemma length_commas l : length l <= length (tokens (commas (map pieces l))).
  Proof.
    induction l as [|t l IH]; [cbn; lia|]. pose proof (tokens_nonempty t). destruct l as [|t' l]; [cbn in *; lia|].
    change (commas (map pieces (t :: t' :: l))) with (pieces t ++ sym Comma :: Gap [32%N] :: commas (map pieces (t' :: l))).
    rewrite tokens_app, app_length. cbn [tokens sym length] in *. lia.
  Qed.
  Lemma pieces_parse t : parses t.
  Proof.
    induction t as [m n a H|a r H Hr|i|e H] using type_induction; intros fuel rest F E; (destruct fuel as [|fuel]; [lia|]).
    - cbn [pieces ast] in *. rewrite tokens_app in *.
      assert (K : forall module x, length (tokens match a with [] => [] | _ :: _ => sym LeftParen :: commas (map pieces a) ++ [sym RightParen] end) < fuel ->
        parse_type_name_finish (series_of fuel (parse_type fuel)) module (Some x)
          (tokens (match a with [] => [] | _ => sym LeftParen :: commas (map pieces a) ++ [sym RightParen] end) ++ rest)
        = Some (Some (AstConstructor module (Some x) (map ast a) (match a with [] => false | _ => true end)), rest)).
      { intros module x Fl. unfold parse_type_name_finish. destruct a as [|t a].
        - cbn [tokens app map]. destruct rest as [|[] rest]; try reflexivity; try contradiction.
          destruct s; try contradiction; reflexivity.
        - cbn [tokens sym app] in Fl |- *. rewrite maybe_one_same. rewrite tokens_app in *. cbn [length] in Fl. rewrite app_length in Fl.
          cbn [tokens sym length] in Fl. rewrite <- app_assoc. cbn [tokens sym app].
          rewrite series_parses; [|auto|lia|]; [|pose proof (length_commas (t :: a)); lia].
          rewrite maybe_one_same. reflexivity. }
      rewrite app_length in F.
      destruct (q m n) as [m0 a0|a0|u a0] eqn:Eq; cbn [name_pieces tokens sym app length name_module name_itself] in *;
        cbn [parse_type]; rewrite ?maybe_one_same; apply K; lia.
    - cbn [pieces ast] in *. cbn [tokens sym app length] in *. rewrite tokens_app in *. rewrite app_length in F.
      cbn [tokens sym app length] in *. cbn [parse_type]. rewrite maybe_one_same. rewrite <- app_assoc. cbn [app].
      rewrite series_parses; [|auto|lia|pose proof (length_commas a); lia]. rewrite !maybe_one_same.
      rewrite Hr; [reflexivity|lia|auto].
    - cbn [pieces ast tokens app length] in *. cbn [parse_type].
      replace (maybe_one Dot rest) with (@None (list token)); [reflexivity|].
      destruct rest as [|[] rest]; try reflexivity; try contradiction. destruct s; try contradiction; reflexivity.
    - cbn [pieces ast] in *. cbn [tokens sym app length] in *. rewrite tokens_app in *. rewrite app_length in F.
      cbn [tokens sym app length] in *. cbn [parse_type]. rewrite maybe_one_same. rewrite <- app_assoc. cbn [app].
      rewrite series_parses; [|auto|lia|pose proof (length_commas e); lia]. rewrite maybe_one_same. reflexivity.
  Qed.
  Lemma pieces_significant t : filter significant (toks t) = toks t.
  Proof.
    assert (F : Forall (fun x => significant x = true) (toks t)).
    { induction t as [m n a H|a r H Hr|i|e H] using type_induction; cbn [pieces].
      all: assert (C : forall l, Forall (fun t => Forall (fun x => significant x = true) (toks t)) l ->
            Forall (fun x => significant x = true) (tokens (commas (map pieces l)))).
      all: try (induction 1 as [|t l Ht _ IHl]; [constructor|]; destruct l as [|t' l]; [exact Ht|];
        change (commas (map pieces (t :: t' :: l))) with (pieces t ++ sym Comma :: Gap [32%N] :: commas (map pieces (t' :: l)));
        rewrite tokens_app; apply Forall_app; split; [exact Ht|]; cbn [tokens sym]; constructor; [reflexivity|exact IHl]).
      - rewrite tokens_app. apply Forall_app. split; [destruct (q m n); repeat constructor|]. destruct a; [constructor|].
        cbn [tokens sym]. constructor; [reflexivity|]. rewrite tokens_app. apply Forall_app. split; [apply C; exact H|repeat constructor].
      - cbn [tokens sym]. constructor; [reflexivity|]. constructor; [reflexivity|]. rewrite tokens_app. apply Forall_app. split; [apply C; exact H|].
        cbn [tokens sym]. repeat (constructor; [reflexivity|]). exact Hr.
      - repeat constructor.
      - cbn [tokens sym]. constructor; [reflexivity|]. constructor; [reflexivity|]. rewrite tokens_app. apply Forall_app. split; [apply C; exact H|repeat constructor]. }
    induction F as [|x l Hx _ IH]; cbn; [reflexivity|]. rewrite Hx. congruence.
  Qed.
  Lemma pieces_read t : proper t -> read_type (writing (pieces t)) = Some (ast t).
  Proof.
    intros P. assert (S : spaced (pieces t)).
    { rewrite <- (app_nil_r (pieces t)). apply pieces_spaced; auto; [exact I|now left]. }
    destruct (lex_spaced _ S) as [ts [E T]]. unfold read_type. rewrite E, T, pieces_significant.
    pose proof (pieces_parse t (Datatypes.S (length (toks t))) []) as Q. rewrite app_nil_r in Q. rewrite Q; [reflexivity|lia|exact I].
  Qed.

  (** *** The types are found *)
  Record well_numbered (h : hydrator) : Prop := {
    n_below : forall x i, get text_eqb x (created_type_variables h) = Some i -> (i < next_id h)%N;
    n_one : forall x y i, get text_eqb x (created_type_variables h) = Some i ->
      get text_eqb y (created_type_variables h) = Some i -> x = y
  }.
  Definition knows (h h' : hydrator) : Prop := forall x i, get text_eqb x (created_type_variables h) = Some i ->
    get text_eqb x (created_type_variables h') = Some i.
  Definition hydrated (e : environment) (t : type) : Prop := forall h, well_numbered h ->
    exists r h', type_from_ast e (ast t) h = Some (r, h') /\ well_numbered h' /\ knows h h'
      /\ (forall i, In i (variables t) -> get text_eqb (name i) (created_type_variables h') <> None)
      /\ (forall g, (forall x i, get text_eqb x (created_type_variables h') = Some i -> g x = i) ->
            r = rename (fun i => g (name i)) t).
  Lemma each_hydrated e l : Forall (hydrated e) l -> forall h, well_numbered h ->
    exists r h', each (type_from_ast e) (map ast l) h = Some (r, h') /\ well_numbered h' /\ knows h h'
      /\ (forall i, In i (flat_map variables l) -> get text_eqb (name i) (created_type_variables h') <> None)
      /\ (forall g, (forall x i, get text_eqb x (created_type_variables h') = Some i -> g x = i) ->
            r = map (rename (fun i => g (name i))) l).
  Proof.
    induction 1 as [|t l H _ IH]; intros h W.
    - exists [], h. split; [reflexivity|]. split; [auto|]. split; [intros x i Hx; exact Hx|]. split; [intros i []|reflexivity].
    - destruct (H h W) as [r [h1 [E1 [W1 [K1 [V1 G1]]]]]]. destruct (IH h1 W1) as [rs [h2 [E2 [W2 [K2 [V2 G2]]]]]].
      exists (r :: rs), h2. cbn [map each]. rewrite E1, E2. split; [reflexivity|]. split; [auto|].
      split; [intros x i Hx; auto|]. split.
      + intros i I. cbn in I. apply in_app_iff in I as [I|I]; [|auto]. specialize (V1 i I).
        destruct (get text_eqb (name i) (created_type_variables h1)) eqn:G; [|congruence]. apply K2 in G. congruence.
      + intros g Hg. f_equal; [apply G1; intros x i Hx; apply Hg; auto|auto].
  Qed.
  Lemma replaced_parameters ids : forall args, NoDup ids -> length args = length ids ->
    map (fun i => replaced i (map Var ids) args) ids = args.
  Proof.
    induction ids as [|i ids IH]; intros [|a args] N L; cbn in L |- *; try discriminate; [reflexivity|].
    rewrite N.eqb_refl. f_equal. inversion N; subst. transitivity (map (fun i => replaced i (map Var ids) args) ids); [|apply IH; auto].
    apply map_ext_in. intros j J. replace (i =? j)%N with false; [reflexivity|]. symmetry. apply N.eqb_neq. intros ->. contradiction.
  Qed.
  Lemma each_length e l : forall h r h', each (type_from_ast e) l h = Some (r, h') -> length r = length l.
  Proof.
    induction l as [|a l IH]; intros h r h' E; cbn [each] in E; [now injection E as <- <-|].
    destruct (type_from_ast e a h) as [[t h1]|]; [|discriminate]. destruct (each (type_from_ast e) l h1) as [[ts h2]|] eqn:E2; [|discriminate].
    injection E as <- <-. cbn. f_equal. eauto.
  Qed.
  Lemma pieces_hydrate arity e t : well_formed arity t -> (forall m n, mentions m n t -> found arity e (q m n) m n) -> hydrated e t.
  Proof.
    induction t as [m n a H|a r H Hr|i|l H] using type_induction; intros Wf F h W.
    - inversion Wf as [m' n' a' La Wa| | |]; subst.
      assert (Ha : Forall (hydrated e) a).
      { rewrite Forall_forall in H, Wa |- *. intros t I. apply H; auto. intros m' n' M. apply F. eapply mentions_argument; eauto. }
      destruct (each_hydrated e a Ha h W) as [r [h' [E [W' [K [V G]]]]]].
      assert (C : exists c, get_type_constructor (name_module (q m n)) (name_itself (q m n)) e = Some c
        /\ is_the_type m n c /\ sound_parameters (tc_parameters c) /\ length (tc_parameters c) = arity m n).
      { specialize (F m n (mentions_it m n a)). destruct (q m n); cbn [found name_module name_itself] in *; [contradiction| |]; tauto. }
      destruct C as [c [Gc [Tc [[ids [Ps Nd]] Lc]]]].
      assert (Lr : length r = length ids) by (apply each_length in E; rewrite map_length in E; rewrite Ps, map_length in Lc; lia).
      exists (Named m n r), h'. cbn [ast type_from_ast]. rewrite E. cbn. rewrite Gc. rewrite map_length.
      assert (Hp : length a = length (tc_parameters c)) by lia.
      assert (P0 : (match a with [] => false | _ :: _ => true end && (length (tc_parameters c) =? 0)) = false).
      { destruct a; [reflexivity|]. cbn in *. destruct (length (tc_parameters c)); [discriminate|reflexivity]. }
      rewrite P0. rewrite Hp, Nat.eqb_refl. split; [|split; [auto|split; [auto|split; [auto|]]]].
      + unfold is_the_type in Tc. rewrite Tc, Ps. cbn [instantiated]. rewrite map_map. cbn [instantiated].
        rewrite replaced_parameters; auto.
      + intros g Hg. cbn [rename]. f_equal. auto.
    - inversion Wf as [|a' r' Wa Wr| |]; subst.
      assert (Ha : Forall (hydrated e) a).
      { rewrite Forall_forall in H, Wa |- *. intros t I. apply H; auto. intros m' n' M. apply F. eapply mentions_parameter; eauto. }
      destruct (each_hydrated e a Ha h W) as [ra [h1 [E1 [W1 [K1 [V1 G1]]]]]].
      destruct (Hr Wr) with (h := h1) as [rr [h2 [E2 [W2 [K2 [V2 G2]]]]]]; [intros m' n' M; apply F; now apply mentions_return|auto|].
      exists (TFn ra rr), h2. cbn [ast type_from_ast]. rewrite E1, E2. split; [reflexivity|]. split; [auto|].
      split; [intros x i Hx; auto|]. split.
      + intros i I. cbn in I. apply in_app_iff in I as [I|I]; [|auto]. specialize (V1 i I).
        destruct (get text_eqb (name i) (created_type_variables h1)) eqn:G; [|congruence]. apply K2 in G. congruence.
      + intros g Hg. cbn [rename]. f_equal; [apply G1; intros x i Hx; apply Hg; auto|auto].
    - cbn [ast type_from_ast]. destruct (get text_eqb (name i) (created_type_variables h)) as [j|] eqn:G.
      + exists (Var j), h. split; [reflexivity|]. split; [auto|]. split; [intros x k Hx; auto|]. split.
        * intros i' [<-|[]]. congruence.
        * intros g Hg. cbn. f_equal. symmetry. auto.
      + eexists; eexists. split; [reflexivity|]. destruct W as [B O]. split; [|split; [|split]].
        * constructor; cbn [created_type_variables next_id get].
          -- intros x k. destruct (text_eqb x (name i)); [intros E; injection E as <-; lia|]. intros E. apply B in E. lia.
          -- intros x y k. destruct (text_eqb x (name i)) eqn:Ex, (text_eqb y (name i)) eqn:Ey; intros A1 A2.
             ++ apply text_eqb_eq in Ex, Ey. congruence.
             ++ injection A1 as <-. apply B in A2. lia.
             ++ injection A2 as <-. apply B in A1. lia.
             ++ eauto.
        * intros x k Hx. cbn [created_type_variables get]. destruct (text_eqb x (name i)) eqn:Ex; [|auto].
          apply text_eqb_eq in Ex. congruence.
        * intros i' [<-|[]]. cbn [created_type_variables get]. rewrite text_eqb_refl. discriminate.
        * intros g Hg. cbn. f_equal. symmetry. apply Hg. cbn. now rewrite text_eqb_refl.
    - inversion Wf as [| | |l' Wl]; subst.
      assert (Ha : Forall (hydrated e) l).
      { rewrite Forall_forall in H, Wl |- *. intros t I. apply H; auto. intros m' n' M. apply F. eapply mentions_element; eauto. }
      destruct (each_hydrated e l Ha h W) as [ra [h1 [E1 [W1 [K1 [V1 G1]]]]]].
      exists (Tuple ra), h1. cbn [ast type_from_ast]. rewrite E1. split; [reflexivity|]. repeat (split; [auto|]).
      intros g Hg. cbn [rename]. f_equal. auto.
  Qed.
  Lemma pieces_annotation arity e t :
    proper t -> well_formed arity t -> (forall m n, mentions m n t -> found arity e (q m n) m n) ->
    (forall i j, In i (variables t) -> In j (variables t) -> name i = name j -> i = j) ->
    exists t', annotation e (writing (pieces t)) = Some t' /\ alike t t'.
  Proof.
    intros P Wf F N. unfold annotation. rewrite pieces_read by auto.
    destruct (pieces_hydrate arity e t Wf F (Hydrator [] 0)) as [r [h [E [W [_ [V G]]]]]].
    { constructor; cbn; discriminate. }
    rewrite E. exists r. split; [reflexivity|].
    set (g := fun x => match get text_eqb x (created_type_variables h) with Some i => i | None => 0%N end).
    exists (fun i => g (name i)). split.
    - intros i j I J Eg. apply N; auto. specialize (V i I) as Vi. specialize (V j J) as Vj. unfold g in Eg.
      destruct (get text_eqb (name i) (created_type_variables h)) as [k|] eqn:Gi; [|congruence].
      destruct (get text_eqb (name j) (created_type_variables h)) as [k'|] eqn:Gj; [|congruence]. subst k'.
      eapply (n_one _ W); eauto.
    - apply G. intros x i Hx. unfold g. now rewrite Hx.
  Qed.
End Naming.
