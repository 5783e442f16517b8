(** Operators and punctuation. *)
From Coq Require Import String NArith ZArith Bool List Lia ZifyBool ZifyNat ZifyN.
From Verif Require Import Text TextProofs Strings StringsSpec SrcSpan Lexer LexerSpec LexerProofs LexerNumbers LexerStrings.
Import ListNotations.
Open Scope N_scope.

(** ** The longest symbol *)
Definition all_symbols : list symbol :=
  [LeftParen; RightParen; LeftSquare; RightSquare; LeftBrace; RightBrace; Plus; Minus; Star; Slash; Less; Greater;
   LessEqual; GreaterEqual; Percent; PlusDot; MinusDot; StarDot; SlashDot; LessDot; GreaterDot; LessEqualDot;
   GreaterEqualDot; Concatenate; Colon; Comma; Hash; Bang; Equal; EqualEqual; NotEqual; Vbar; VbarVbar; AmperAmper;
   LtLt; GtGt; Pipe; Dot; RArrow; LArrow; DotDot; At].
Lemma in_all_symbols s : In s all_symbols.
Proof. destruct s; cbn; tauto. Qed.

Fixpoint strip (a b : text) : option text :=
  match a, b with
  | [], b => Some b
  | x :: a, y :: b => if x =? y then strip a b else None
  | _ :: _, [] => None
  end.
Lemma strip_spec a : forall b u, strip a b = Some u <-> b = (a ++ u)%list.
Proof.
  induction a as [|c a IH]; intros [|d b] u; cbn.
  - split; congruence.
  - split; congruence.
  - split; discriminate.
  - destruct (N.eqb_spec c d) as [->|N].
    + rewrite IH. split; congruence.
    + split; [discriminate|]. congruence.
Qed.
Definition extensions (s : symbol) : list text :=
  filter (fun u => negb (text_eqb u []))
    (flat_map (fun t => match strip (symbol_text s) t with Some u => [u] | None => [] end)
       (map symbol_text all_symbols))
  ++ flat_map (fun t => match strip (symbol_text s) t with Some u => [u] | None => [] end) reserved.

Lemma app_cases {A} (a b c d : list A) : (a ++ b = c ++ d)%list ->
  (exists u, c = a ++ u /\ b = u ++ d)%list \/ (exists u, a = c ++ u /\ u <> [] /\ d = u ++ b)%list.
Proof.
  revert c. induction a as [|x a IH]; intros c E; cbn in *.
  - left. exists c. auto.
  - destruct c as [|y c]; cbn in *.
    + right. exists (x :: a). split; auto. split; [discriminate|auto].
    + injection E as -> E. destruct (IH _ E) as [(u & -> & ->)|(u & -> & N & ->)].
      * left. exists u. auto.
      * right. exists u. auto.
Qed.

Lemma longest_intro s rest :
  (forall u, In u (extensions s) -> starts_with u rest = false) -> longest s rest.
Proof.
  intros H. split.
  - intros s' r E. destruct (app_cases _ _ _ _ E) as [(u & E1 & E2)|(u & E1 & _ & _)].
    2:{ rewrite E1, app_length. lia. }
    destruct u as [|c u]; [rewrite E1, app_nil_r; lia|]. exfalso.
    assert (I : In (c :: u) (extensions s)).
    { unfold extensions. apply in_or_app. left. apply filter_In. split; [|reflexivity].
      apply in_flat_map. exists (symbol_text s'). split; [apply in_map, in_all_symbols|].
      apply strip_spec in E1. rewrite E1. left. reflexivity. }
    apply H in I. rewrite E2 in I.
    assert (starts_with (c :: u) ((c :: u) ++ r) = true) by (apply starts_with_spec; eauto). congruence.
  - intros u r IU E. destruct (app_cases _ _ _ _ E) as [(v & E1 & E2)|(v & E1 & NV & _)].
    + assert (I : In v (extensions s)).
      { unfold extensions. apply in_or_app. right. apply in_flat_map. exists u. split; [exact IU|].
        apply strip_spec in E1. rewrite E1. left. reflexivity. }
      apply H in I. rewrite E2 in I.
      assert (starts_with v (v ++ r) = true) by (apply starts_with_spec; eauto). congruence.
    + assert (length u = 2%nat) by (cbn in IU; intuition (subst; reflexivity)).
      assert (L3 : (length (symbol_text s) = 3)%nat).
      { rewrite E1, app_length. assert (length (symbol_text s) <= 3)%nat by (destruct s; cbn; lia).
        rewrite E1, app_length in *. destruct v; [congruence|]. cbn in *. lia. }
      destruct s; try discriminate L3; cbn in IU;
        repeat destruct IU as [IU|IU]; try contradiction; subst u; discriminate E1.
Qed.

Lemma head_not (l : list (N * N)) c u :
  match option_map snd (hd_error l) with Some d => d =? c | None => false end = false ->
  starts_with (c :: u) (map snd l) = false.
Proof.
  destruct l as [|[p d] l]; cbn; auto. intros H. rewrite N.eqb_sym, H. reflexivity.
Qed.

(** ** Merge conflicts *)
Lemma no_conflict a b r : a <> b -> forall c, ~ merge_conflict c (a :: b :: r).
Proof. intros N c (_ & r' & E). cbn in E. congruence. Qed.
Lemma no_conflict_short a : forall c, ~ merge_conflict c [a].
Proof. intros c (_ & r' & E). discriminate. Qed.
Lemma no_conflict_first a r : a <> 60 -> a <> 61 -> a <> 62 -> forall c, ~ merge_conflict c (a :: r).
Proof. intros A B C c (H & r' & E). cbn in E. injection E as -> _. tauto. Qed.
Lemma no_conflict_head a l :
  match option_map snd (hd_error l) with Some d => d =? a | None => false end = false ->
  forall c, ~ merge_conflict c (a :: map snd (l : list (N * N))).
Proof.
  destruct l as [|[p d] l]; cbn [map snd hd_error option_map]; intros H.
  - apply no_conflict_short.
  - apply no_conflict. intros ->. rewrite N.eqb_refl in H. discriminate.
Qed.

(** ** What has been consumed *)
Definition emitted (o : outcome unit * lexer) (x : lexer) (L : list (N * N)) (e : N) : Prop :=
  exists ps l', emits o x L e ps l' /\ items ps (map snd l') /\ ps <> [].
Definition consumed (o : outcome unit * lexer) (x : lexer) (L : list (N * N)) (e : N) : Prop :=
  emitted o x L e \/ fails o L e.

Lemma items_one ps rest : item ps rest -> items ps rest.
Proof. intros H. rewrite <- (app_nil_r ps). apply items_cons; [exact H|constructor]. Qed.

Lemma emitted_symbol s o x x' (L w l' : list (N * N)) e :
  o = (Ok tt, x') -> sees x' l' e ->
  pending x' = (pending x ++ [(pos L e, Symbol s, pos l' e)])%list ->
  L = (w ++ l')%list -> map snd w = symbol_text s ->
  s <> Equal -> s <> EqualEqual ->
  (forall u, In u (extensions s) -> starts_with u (map snd l') = false) ->
  (s = Minus \/ s = Dot -> ~ followed a_digit (map snd l')) ->
  (forall c, ~ merge_conflict c (symbol_text s ++ map snd l')) ->
  emitted o x L e.
Proof.
  intros Ho Hs Hp HL Hw N1 N2 HX HD HM.
  exists [Tok (Symbol s) (symbol_text s)], l'. split; [|split].
  - exists x', w. conj; auto.
    + rewrite Hp. cbn [ahead]. rewrite <- Hw, HL, skipn_map_length. reflexivity.
    + rewrite Hw. unfold writing. cbn [flat_map written]. rewrite app_nil_r. reflexivity.
  - apply items_one. apply item_symbol; auto. apply longest_intro. exact HX.
  - discriminate.
Qed.

Lemma consumed_symbol s o x x' (L w l' : list (N * N)) e :
  o = (Ok tt, x') -> sees x' l' e ->
  pending x' = (pending x ++ [(pos L e, Symbol s, pos l' e)])%list ->
  L = (w ++ l')%list -> map snd w = symbol_text s ->
  s <> Equal -> s <> EqualEqual ->
  (forall u, In u (extensions s) -> starts_with u (map snd l') = false) ->
  (s = Minus \/ s = Dot -> ~ followed a_digit (map snd l')) ->
  (forall c, ~ merge_conflict c (symbol_text s ++ map snd l')) ->
  consumed o x L e.
Proof. intros. left. eapply emitted_symbol; eauto. Qed.

Lemma run_operator x st s q c l e : sees x ((q, c) :: l) e ->
  exists x', operator st s x = (Ok tt, x') /\ sees x' l e /\ pending x' = (pending x ++ [(st, Symbol s, pos l e)])%list.
Proof.
  intros H. unfold operator. bn H. bp.
  destruct (run_emit _ _ _ (st, Symbol s, pos l e) S) as (x' & R & S' & P'). exists x'. conj; auto. rewrite P', P. reflexivity.
Qed.
Lemma run_emit_symbol x st s l e : sees x l e ->
  exists x', emit_symbol st s x = (Ok tt, x') /\ sees x' l e /\ pending x' = (pending x ++ [(st, Symbol s, pos l e)])%list.
Proof.
  intros H. unfold emit_symbol. bp.
  destruct (run_emit _ _ _ (st, Symbol s, pos l e) H) as (x' & R & S' & P'). exists x'. conj; auto.
Qed.
Lemma run_unsupported x st q c l e : sees x ((q, c) :: l) e ->
  exists x', unsupported st x
    = (Err {| error_kind := UnsupportedProceduralOperator; error_start := st; error_end := pos l e |}, x').
Proof. intros H. unfold unsupported. bn H. bp. eexists. reflexivity. Qed.
Lemma run_on_char0 x l e arms other : sees x l e ->
  on_char0 arms other x = choose (option_map snd (hd_error l)) arms other x.
Proof. intros H. unfold on_char0. b0. reflexivity. Qed.

Lemma unsupported_fails o x' p c q d (l : list (N * N)) e :
  o = (Err {| error_kind := UnsupportedProceduralOperator; error_start := p; error_end := pos l e |} : outcome unit, x') ->
  In [c; d] procedural -> fails o ((p, c) :: (q, d) :: l) e.
Proof.
  intros -> I. eexists. exists x'. split; [reflexivity|]. exists [], [c; d].
  cbn [error_kind error_start error_end map snd]. split; [apply (bad_procedural [c; d]); exact I|reflexivity].
Qed.

(** Goals of operators: the extensions of the symbol do not follow. *)
Ltac none_follow :=
  let u := fresh "u" in let I := fresh "I" in
  intros u I; vm_compute in I;
  repeat (destruct I as [I|I]; [subst u; first [apply head_not; assumption | reflexivity | idtac]|]);
  contradiction.
Ltac no_conf :=
  match goal with |- context [symbol_text ?s] => let v := eval vm_compute in (symbol_text s) in change (symbol_text s) with v; cbn [app] end;
  first [ apply no_conflict_first; lia | apply no_conflict_head; assumption | apply no_conflict; lia ].
Ltac sym S X :=
  let x' := fresh "x" in let R := fresh "R" in let S' := fresh "S" in let P' := fresh "P" in
  destruct X as (x' & R & S' & P'); rewrite R; first [eapply (consumed_symbol S) | eapply (emitted_symbol S)];
  [ reflexivity | exact S' | cbn [pos]; rewrite P'; try congruence
  | | | discriminate | discriminate | none_follow | | ].

Ltac chs := repeat match goal with |- context [ch ?s] => let v := eval vm_compute in (ch s) in change (ch s) with v end.
(** The next arm of a [choose]. *)
Ltac arm E q l2 :=
  match goal with
  | |- context [if match option_map snd (hd_error ?l) with Some d => d =? ?c | None => false end then _ else _] =>
      destruct (match option_map snd (hd_error l) with Some d => d =? c | None => false end) eqn:E;
      [apply is_char in E as (q & l2 & ->)|]
  end.
Ltac enter H := bn H; erewrite run_on_char0 by eassumption; cbn [choose]; chs.
Ltac two := match goal with |- ?L = (?w ++ ?l')%list =>
  match L with (?a :: ?b :: l') => instantiate (1 := [a; b]) | (?a :: l') => instantiate (1 := [a])
             | (?a :: ?b :: ?c :: l') => instantiate (1 := [a; b; c]) end; reflexivity end.
Ltac pend := repeat match goal with H : pending ?a = pending ?b |- context [pending ?a] => rewrite H; clear H end; reflexivity.
Ltac fin := first [two | reflexivity | intros [Q|Q]; discriminate | no_conf | pend].

Section Operators.
  Variables (x : lexer) (p e : N) (l : list (N * N)).

  Lemma plus_spec : sees x ((p, 43) :: l) e ->
    consumed ((next_char ;;
      on_char0
        [(ch ".", operator p PlusDot); (ch "=", unsupported p); (ch "+", unsupported p)]
        (emit_symbol p Plus)) x) x ((p, 43) :: l) e.
  Proof.
    intros H. enter H. arm E1 q l2; [sym PlusDot (run_operator x0 p PlusDot _ _ _ _ S); fin|].
    arm E2 q l2; [right; destruct (run_unsupported x0 p _ _ _ _ S) as (x' & R); rewrite R;
      eapply unsupported_fails; [reflexivity|cbn; tauto]|].
    arm E3 q l2; [right; destruct (run_unsupported x0 p _ _ _ _ S) as (x' & R); rewrite R;
      eapply unsupported_fails; [reflexivity|cbn; tauto]|].
    sym Plus (run_emit_symbol x0 p Plus _ _ S); fin.
  Qed.

  Lemma star_spec : sees x ((p, 42) :: l) e ->
    consumed ((next_char ;;
      on_char0 [(ch ".", operator p StarDot); (ch "=", unsupported p)] (emit_symbol p Star)) x) x ((p, 42) :: l) e.
  Proof.
    intros H. enter H. arm E1 q l2; [sym StarDot (run_operator x0 p StarDot _ _ _ _ S); fin|].
    arm E2 q l2; [right; destruct (run_unsupported x0 p _ _ _ _ S) as (x' & R); rewrite R;
      eapply unsupported_fails; [reflexivity|cbn; tauto]|].
    sym Star (run_emit_symbol x0 p Star _ _ S); fin.
  Qed.

  Lemma slash_spec : sees x ((p, 47) :: l) e ->
    consumed ((next_char ;;
      on_char0
        [(ch ".", operator p SlashDot);
         (ch "/", next_char ;; let! comment := lex_comment in emit comment);
         (ch "=", unsupported p)]
        (emit_symbol p Slash)) x) x ((p, 47) :: l) e.
  Proof.
    intros H. enter H. arm E1 q l2; [sym SlashDot (run_operator x0 p SlashDot _ _ _ _ S); fin|].
    arm E2 q l2.
    - left. bn S. destruct (lex_comment_spec _ _ _ S0) as (sl & co & l' & t & x2 & -> & IT & R & S2 & P2).
      erewrite bind_ok by exact R.
      destruct (run_emit _ _ _ (pos (co ++ l') e, t, pos l' e) S2) as (x3 & R3 & S3 & P3). rewrite R3.
      exists [Gap (47 :: 47 :: map snd sl); Tok t (map snd co)], l'. split; [|split].
      + exists x3, ((p, 47) :: (q, 47) :: sl ++ co)%list. conj; auto.
        * rewrite P3, P2, P0, P. cbn [ahead length skipn].
          rewrite !skipn_map_length. reflexivity.
        * cbn. rewrite <- app_assoc. reflexivity.
        * unfold writing. cbn. rewrite map_app, app_nil_r. reflexivity.
      + apply items_one. exact IT.
      + discriminate.
    - arm E3 q l2; [right; destruct (run_unsupported x0 p _ _ _ _ S) as (x' & R); rewrite R;
        eapply unsupported_fails; [reflexivity|cbn; tauto]|].
      sym Slash (run_emit_symbol x0 p Slash _ _ S); fin.
  Qed.

  Lemma percent_spec : sees x ((p, 37) :: l) e ->
    consumed ((next_char ;; on_char0 [(ch "=", unsupported p)] (emit_symbol p Percent)) x) x ((p, 37) :: l) e.
  Proof.
    intros H. enter H.
    arm E2 q l2; [right; destruct (run_unsupported x0 p _ _ _ _ S) as (x' & R); rewrite R;
      eapply unsupported_fails; [reflexivity|cbn; tauto]|].
    sym Percent (run_emit_symbol x0 p Percent _ _ S); fin.
  Qed.

  Lemma bar_spec : sees x ((p, 124) :: l) e ->
    consumed ((next_char ;;
      on_char0 [(ch "|", operator p VbarVbar); (ch ">", operator p Pipe)] (emit_symbol p Vbar)) x) x ((p, 124) :: l) e.
  Proof.
    intros H. enter H. arm E1 q l2; [sym VbarVbar (run_operator x0 p VbarVbar _ _ _ _ S); fin|].
    arm E2 q l2; [sym Pipe (run_operator x0 p Pipe _ _ _ _ S); fin|].
    sym Vbar (run_emit_symbol x0 p Vbar _ _ S); fin.
  Qed.

  Lemma ampersand_spec : sees x ((p, 38) :: l) e ->
    consumed ((next_char ;;
      on_char0 [(ch "&", operator p AmperAmper)] (fail (UnrecognizedToken (ch "&")) p p)) x) x ((p, 38) :: l) e.
  Proof.
    intros H. enter H. arm E1 q l2; [sym AmperAmper (run_operator x0 p AmperAmper _ _ _ _ S); fin|].
    right. eexists. exists x0. split; [reflexivity|]. exists [], []. cbn [error_kind error_start error_end map snd].
    split; [|reflexivity]. apply bad_ampersand. intros (r & E). apply not_char in E1. apply E1. exists r. exact E.
  Qed.

  Lemma minus_spec : sees x ((p, 45) :: l) e -> is_number_start 45 (option_map snd (hd_error l)) = false ->
    consumed ((next_char ;;
      on_char0
        [(ch ".", operator p MinusDot); (ch ">", operator p RArrow); (ch "=", unsupported p)]
        (emit_symbol p Minus)) x) x ((p, 45) :: l) e.
  Proof.
    intros H NS. enter H. arm E1 q l2; [sym MinusDot (run_operator x0 p MinusDot _ _ _ _ S); fin|].
    arm E2 q l2; [sym RArrow (run_operator x0 p RArrow _ _ _ _ S); fin|].
    arm E3 q l2; [right; destruct (run_unsupported x0 p _ _ _ _ S) as (x' & R); rewrite R;
      eapply unsupported_fails; [reflexivity|cbn; tauto]|].
    sym Minus (run_emit_symbol x0 p Minus _ _ S); try fin.
    intros _. destruct l as [|[q d] l']; [intros []|]. cbn in *. rewrite <- digit_iff. congruence.
  Qed.

  Lemma bang_spec : sees x ((p, 33) :: l) e ->
    consumed ((next_char ;; on_char0 [(ch "=", operator p NotEqual)] (emit_symbol p Bang)) x) x ((p, 33) :: l) e.
  Proof.
    intros H. enter H. arm E1 q l2; [sym NotEqual (run_operator x0 p NotEqual _ _ _ _ S); fin|].
    sym Bang (run_emit_symbol x0 p Bang _ _ S); fin.
  Qed.

  Lemma dot_spec : sees x ((p, 46) :: l) e ->
    consumed ((next_char ;;
      on_char0 [(ch ".", operator p DotDot)] (emit_symbol p Dot ;; maybe_lex_dot_access)) x) x ((p, 46) :: l) e.
  Proof.
    intros H. enter H. arm E1 q l2; [sym DotDot (run_operator x0 p DotDot _ _ _ _ S); fin|].
    destruct (run_emit_symbol x0 p Dot _ _ S) as (x1 & R1 & S1 & P1). erewrite bind_ok by exact R1.
    destruct (dot_access_spec _ _ _ S1) as [(ND & R2)|(s & v & l' & x2 & -> & V & DE & R2 & S2 & P2)]; rewrite R2.
    - eapply (consumed_symbol Dot); [reflexivity|exact S1| | | |discriminate|discriminate|none_follow| |].
      + cbn [pos]. rewrite P1, P. reflexivity.
      + two.
      + reflexivity.
      + intros _. exact ND.
      + no_conf.
    - left. exists [Tok (Symbol Dot) (str "."); Tok (Int (map snd s) (Z.of_N v)) (map snd s)], l'. split; [|split].
      + exists x2, ((p, 46) :: s). conj; auto.
        * rewrite P2, P1, P. cbn [ahead pos length str skipn]. rewrite skipn_map_length, <- app_assoc. reflexivity.
        * unfold writing. cbn. rewrite app_nil_r. reflexivity.
      + apply items_one. apply item_dot_number; auto.
      + discriminate.
  Qed.

  (** One character *)
  Lemma single_spec c s : sees x ((p, c) :: l) e -> single_character c = Some s ->
    consumed (eat_single_char (Symbol s) x) x ((p, c) :: l) e.
  Proof.
    intros H SC.
    assert (R : exists x', eat_single_char (Symbol s) x = (Ok tt, x') /\ sees x' l e
              /\ pending x' = (pending x ++ [(p, Symbol s, pos l e)])%list).
    { unfold eat_single_char. bp. bn H. cbv beta iota. bp.
      destruct (run_emit _ _ _ (p, Symbol s, pos l e) S) as (x' & R & S' & P'). exists x'. conj; auto.
      rewrite P', P. reflexivity. }
    destruct R as (x' & R & S' & P'). rewrite R.
    unfold single_character in SC.
    repeat match type of SC with
    | (if c =? ?d then _ else _) = _ =>
        destruct (N.eqb_spec c d) as [->|];
        [injection SC as <-;
         eapply consumed_symbol; [reflexivity|exact S'|exact P'|two|reflexivity|discriminate|discriminate|none_follow| |];
         fin|]
    end. discriminate.
  Qed.
End Operators.

(** ** Runs of one character *)
Lemma run_loop_spec n : forall fuel c st seen x l e,
  (7 - seen = n)%nat -> (3 <= seen <= 7)%nat -> (n < fuel)%nat -> sees x l e ->
  (exists k w l' x',
     l = (w ++ l')%list /\ map snd w = repeat c k /\ (seen + k < 7)%nat
     /\ match option_map snd (hd_error l') with Some d => d =? c | None => false end = false
     /\ run_loop fuel c st seen x = (Ok (seen + k)%nat, x') /\ sees x' l' e /\ pending x' = pending x)
  \/ (exists w l' x',
     l = (w ++ l')%list /\ map snd w = repeat c n
     /\ run_loop fuel c st seen x
        = (Err {| error_kind := MergeConflictIndicator; error_start := st; error_end := pos l' e |}, x')).
Proof.
  induction n as [|n IH]; intros fuel c st seen x l e EN BS LF H; (destruct fuel as [|fuel]; [lia|]); cbn [run_loop].
  - assert (seen = 7%nat) as -> by lia. cbn [Nat.leb]. right. bp. exists [], l, x. conj; auto.
  - assert ((7 <=? seen)%nat = false) as -> by lia. b0.
    destruct (match option_map snd (hd_error l) with Some d => d =? c | None => false end) eqn:E.
    + apply is_char in E as (q & l1 & ->). bn H.
      destruct (IH fuel c st (Datatypes.S seen) x0 l1 e) as [(k & w & l' & x' & -> & W & B & D & R & S' & P')|(w & l' & x' & -> & W & R)]; auto; try lia.
      * left. exists (Datatypes.S k), ((q, c) :: w), l', x'. conj; auto; try congruence; try lia.
        -- cbn. rewrite W. reflexivity.
        -- rewrite R. f_equal. f_equal. lia.
      * right. exists ((q, c) :: w), l', x'. conj; auto. cbn. rewrite W. reflexivity.
    + left. exists 0%nat, [], l, x. conj; auto; try lia. rewrite Nat.add_0_r. reflexivity.
Qed.

Lemma map_repeat_inv c n : forall w : list (N * N), map snd w = repeat c n ->
  exists qs, w = map (fun q => (q, c)) qs /\ length qs = n.
Proof.
  induction n as [|n IH]; intros [|[q d] w] E; try discriminate.
  - exists []. auto.
  - cbn in E. injection E as -> E. destruct (IH _ E) as (qs & -> & L). exists (q :: qs). cbn. auto.
Qed.

Fixpoint pair_tokens (s : symbol) (st : N) (n : nat) : list spanned :=
  match n with
  | Datatypes.S (Datatypes.S n) => (st, Symbol s, st + 2) :: pair_tokens s (st + 2) n
  | _ => []
  end.
Fixpoint pair_end (st : N) (n : nat) : N * bool :=
  match n with
  | Datatypes.S (Datatypes.S n) => pair_end (st + 2) n
  | 1%nat => (st, true)
  | O => (st, false)
  end.
Lemma pairs_spec s e l n : forall m st x, (m < n)%nat -> sees x l e ->
  exists x', pairs s st m x = (Ok (pair_end st m), x') /\ sees x' l e
    /\ pending x' = (pending x ++ pair_tokens s st m)%list.
Proof.
  induction n as [|n IH]; intros m st x LT H; [lia|].
  destruct m as [|[|m]]; cbn [pairs pair_end pair_tokens].
  - exists x. rewrite app_nil_r. auto.
  - exists x. rewrite app_nil_r. auto.
  - destruct (run_emit _ _ _ (st, Symbol s, st + 2) H) as (x1 & R1 & S1 & P1). erewrite bind_ok by exact R1.
    destruct (IH m (st + 2) x1 ltac:(lia) S1) as (x2 & R2 & S2 & P2). exists x2. conj; auto.
    rewrite P2, P1, <- app_assoc. reflexivity.
Qed.

Lemma run_no_conflict c n (l : list (N * N)) : (1 <= n < 7)%nat ->
  match option_map snd (hd_error l) with Some d => d =? c | None => false end = false ->
  forall d, ~ merge_conflict d (repeat c n ++ map snd l).
Proof.
  intros B H d (_ & r & E).
  destruct n as [|[|[|[|[|[|[|n]]]]]]]; try lia; cbn in E;
    destruct l as [|[q b] l]; cbn in *; try discriminate E; injection E; intros; subst; rewrite N.eqb_refl in H; discriminate.
Qed.

(** Pieces before what is left. *)
Lemma emitted_before o x x1 ps0 (L w0 L' : list (N * N)) e :
  pending x1 = (pending x ++ ahead L e ps0)%list -> L = (w0 ++ L')%list -> map snd w0 = writing ps0 ->
  (forall ps rest, map snd L' = (writing ps ++ rest)%list -> items ps rest -> items (ps0 ++ ps) rest) ->
  emitted o x1 L' e -> emitted o x L e.
Proof.
  intros P1 -> W IT (ps & l' & (x' & w & -> & S' & P' & -> & W') & I & N).
  exists (ps0 ++ ps)%list, l'. split; [|split].
  - exists x', (w0 ++ w)%list. conj; auto.
    + rewrite P', P1, <- app_assoc, ahead_app, <- W, skipn_map_length. reflexivity.
    + rewrite app_assoc. reflexivity.
    + rewrite map_app, W, W'. unfold writing. rewrite flat_map_app. reflexivity.
  - apply IT; auto. rewrite map_app, W'. reflexivity.
  - destruct ps0; [exact N|discriminate].
Qed.

Lemma map_repeat_inv3 (c : N) k (w : list (N * N)) : map snd w = repeat c k -> (k < 4)%nat ->
  (k = 0%nat /\ w = []) \/ (k = 1%nat /\ exists a, w = [(a, c)])
  \/ (k = 2%nat /\ exists a b, w = [(a, c); (b, c)])
  \/ (k = 3%nat /\ exists a b d, w = [(a, c); (b, c); (d, c)]).
Proof.
  intros E B.
  destruct k as [|[|[|[|k]]]]; [| | | |lia];
    do 3 (try destruct w as [|[? ?] w]); try discriminate E; cbn in E.
  - left. auto.
  - right. left. injection E as ->. split; eauto.
  - right. right. left. injection E as -> ->. split; eauto.
  - right. right. right. injection E as -> -> -> E. destruct w; [|discriminate]. split; eauto.
Qed.

Ltac places :=
  repeat match goal with
  | |- app ?a _ = app ?a _ => apply (f_equal (app a))
  | |- cons _ _ = cons _ _ => apply f_equal2
  | |- (_, _) = (_, _) => apply f_equal2
  | |- ?a = ?a => reflexivity
  end; first [reflexivity | lia].

Section Runs.
  Variables (c e : N) (s : symbol) (k : N -> M unit).
  Hypothesis c_is : c = 60 \/ c = 61 \/ c = 62.
  Hypothesis s_text : symbol_text s = [c; c].
  Hypothesis s_longest : forall rest, longest s rest.
  Hypothesis s_is : s <> Equal /\ s <> EqualEqual /\ s <> Minus /\ s <> Dot.
  Hypothesis single : forall x st l, sees x l e ->
    match option_map snd (hd_error l) with Some d => d =? c | None => false end = false ->
    emitted (k st x) x ((st, c) :: l) e.

  Let after (p : N) : M unit :=
    let! seen := run_loop 8 c p 3 in
    let! left_over := pairs s p seen in
    if snd left_over then k (fst left_over) else ret tt.

  Lemma merge_conflict_fails (p q r : N) (w l' : list (N * N)) (x' : lexer) :
    map snd w = repeat c 4 ->
    fails (Err {| error_kind := MergeConflictIndicator; error_start := p; error_end := pos l' e |} : outcome unit, x')
      ((p, c) :: (q, c) :: (r, c) :: w ++ l') e.
  Proof.
    intros W. eexists. exists x'. split; [reflexivity|]. exists [], (repeat c 7).
    cbn [error_kind error_start error_end]. split.
    - eapply bad_merge_conflict; [split; [exact c_is|]|]; [eexists|]; cbn [map snd]; rewrite map_app, W; reflexivity.
    - assert (LW : length w = 4%nat) by (rewrite <- (map_length snd w), W; reflexivity).
      unfold locate. cbn [length repeat Nat.add skipn pos]. f_equal. f_equal.
      change (l' = skipn 4 (w ++ l')). symmetry. apply skipn_app_length. symmetry. exact LW.
  Qed.

  Lemma run_spec x x3 (p q r : N) l : sees x3 l e -> pending x3 = pending x ->
    placed ((p, c) :: (q, c) :: (r, c) :: l) e ->
    consumed (after p x3) x ((p, c) :: (q, c) :: (r, c) :: l) e.
  Proof.
    intros H HP PL. unfold after.
    destruct (run_loop_spec 4 8 c p 3 x3 l e) as [(m & w & l' & x' & -> & W & B & D & R & S' & P')|(w & l' & x' & -> & W & R)]; auto; try lia.
    2:{ right. erewrite bind_err by exact R. apply merge_conflict_fails. exact W. }
    left. erewrite bind_ok by exact R. clear R.
    assert (C128 : c < 128 /\ c <> 10) by lia. destruct C128 as (C1 & C2).
    assert (IT : forall rest, (exists n, (2 <= n < 7)%nat /\ ([c; c] ++ rest = repeat c n ++ map snd l')%list) ->
                 item [Tok (Symbol s) [c; c]] rest).
    { intros rest (n & BN & E). rewrite <- s_text. destruct s_is as (? & ? & ? & ?).
      apply item_symbol; auto.
      - intros [Q|Q]; contradiction.
      - rewrite s_text, E. apply run_no_conflict; auto. lia. }
    destruct (pairs_spec s e l' (4 + m) (3 + m) p x' ltac:(lia) S') as (x4 & R4 & S4 & P4).
    erewrite bind_ok by exact R4. clear R4. rewrite P' in P4. rewrite HP in P4.
    apply map_repeat_inv3 in W; [|lia].
    destruct W as [(-> & ->)|[(-> & a & ->)|[(-> & a & b & ->)|(-> & a & b & d & ->)]]];
      cbn [app placed pos] in PL; cbn [pair_end pair_tokens Nat.add fst snd] in *;
      decompose [and] PL; clear PL;
      repeat match goal with Q : c < 128 -> _ |- _ => specialize (Q C1 C2) end; subst.
    - eapply (emitted_before _ _ _ [Tok (Symbol s) [c; c]] _ [(p, c); (p + 1, c)] ((p + 1 + 1, c) :: l'));
        [cbn; rewrite P4; places|reflexivity|reflexivity| |].
      + intros ps rest E I. apply items_cons; [|exact I]. apply IT. exists 3%nat. split; [lia|].
        rewrite <- E. reflexivity.
      + replace (p + 1 + 1) with (p + 2) by lia. apply single; auto.
    - exists [Tok (Symbol s) [c; c]; Tok (Symbol s) [c; c]], l'. split; [|split; [|discriminate]].
      + exists x4, [(p, c); (p + 1, c); (p + 1 + 1, c); (p + 1 + 1 + 1, c)]. conj; auto.
        rewrite P4. cbn. match goal with Q : pos l' e = _ |- _ => rewrite Q end. places.
      + apply (items_cons [_] [_]); [apply IT; exists 4%nat; split; [lia|]; reflexivity|].
        apply items_one. apply IT. exists 2%nat. split; [lia|]. reflexivity.
    - eapply (emitted_before _ _ _ [Tok (Symbol s) [c; c]; Tok (Symbol s) [c; c]] _
                [(p, c); (p + 1, c); (p + 1 + 1, c); (p + 1 + 1 + 1, c)] ((p + 1 + 1 + 1 + 1, c) :: l'));
        [cbn; rewrite P4; places|reflexivity|reflexivity| |].
      + intros ps rest E I. apply (items_cons [_] (_ :: ps)).
        * apply IT. exists 5%nat. split; [lia|]. unfold writing. cbn [flat_map written app]. fold (writing ps).
          change (c :: c :: c :: c :: (writing ps ++ rest) = repeat c 5 ++ map snd l')%list. rewrite <- E. reflexivity.
        * apply (items_cons [_] ps); [|exact I]. apply IT. exists 3%nat. split; [lia|].
          rewrite <- E. reflexivity.
      + replace (p + 1 + 1 + 1 + 1) with (p + 2 + 2) by lia. apply single; auto.
    - exists [Tok (Symbol s) [c; c]; Tok (Symbol s) [c; c]; Tok (Symbol s) [c; c]], l'. split; [|split; [|discriminate]].
      + exists x4, [(p, c); (p + 1, c); (p + 1 + 1, c); (p + 1 + 1 + 1, c); (p + 1 + 1 + 1 + 1, c); (p + 1 + 1 + 1 + 1 + 1, c)]. conj; auto.
        rewrite P4. cbn. match goal with Q : pos l' e = _ |- _ => rewrite Q end. places.
      + apply (items_cons [_] [_; _]); [apply IT; exists 6%nat; split; [lia|]; reflexivity|].
        apply (items_cons [_] [_]); [apply IT; exists 4%nat; split; [lia|]; reflexivity|].
        apply items_one. apply IT. exists 2%nat. split; [lia|]. reflexivity.
  Qed.
End Runs.

(** ** [<], [>] and [=] *)
Ltac here H := erewrite run_on_char0 by eassumption; cbn [choose]; chs.

Lemma lt_single e fuel x st l : sees x l e ->
  match option_map snd (hd_error l) with Some d => d =? 60 | None => false end = false ->
  emitted (lex_lt (Datatypes.S fuel) st x) x ((st, 60) :: l) e.
Proof.
  intros S NL. cbn [lex_lt]. here S.
  arm E1 q l2; [sym Concatenate (run_operator x st Concatenate _ _ _ _ S); fin|].
  rewrite NL.
  arm E2 q l2; [sym LessDot (run_operator x st LessDot _ _ _ _ S); fin|].
  arm E3 q l2; [sym LArrow (run_operator x st LArrow _ _ _ _ S); fin|].
  arm E4 q l2.
  - bn S. here S0. arm E5 q2 l3.
    + sym LessEqualDot (run_operator x0 st LessEqualDot _ _ _ _ S0); fin.
    + sym LessEqual (run_emit_symbol x0 st LessEqual _ _ S0); fin.
  - sym Less (run_emit_symbol x st Less _ _ S); fin.
Qed.

Lemma no_longer s : extensions s = [] -> forall rest, longest s rest.
Proof. intros E rest. apply longest_intro. rewrite E. intros u []. Qed.

Lemma emitted_pending o x x0 L e : pending x0 = pending x -> emitted o x0 L e -> emitted o x L e.
Proof.
  intros P (ps & l' & (x' & w & ? & ? & P' & ? & ?) & I & N).
  exists ps, l'. split; [|auto]. exists x', w. conj; auto. congruence.
Qed.

Lemma lt_spec e fuel x p l : (0 < fuel)%nat -> sees x ((p, 60) :: l) e -> placed ((p, 60) :: l) e ->
  consumed ((next_char ;; lex_lt (Datatypes.S fuel) p) x) x ((p, 60) :: l) e.
Proof.
  intros F H PL. bn H.
  destruct (match option_map snd (hd_error l) with Some d => d =? 60 | None => false end) eqn:E.
  2:{ left. eapply emitted_pending; [exact P|]. apply lt_single; auto. }
  cbn [lex_lt]. here S. rewrite E. apply is_char in E as (q & l2 & ->). cbn [hd_error option_map snd N.eqb Pos.eqb].
  bn S. here S0. arm E1 q2 l3.
  - bn S0. apply (run_spec 60 e LtLt (lex_lt fuel)); auto.
    + apply no_longer. reflexivity.
    + repeat split; discriminate.
    + intros y st l HS NE. destruct fuel as [|fuel]; [lia|]. apply lt_single; auto.
    + congruence.
  - left. sym LtLt (run_emit_symbol x1 p LtLt _ _ S0); try fin. apply (run_no_conflict 60 2); [lia|assumption].
Qed.

Lemma gt_single e fuel x st l : sees x l e ->
  match option_map snd (hd_error l) with Some d => d =? 62 | None => false end = false ->
  emitted (lex_gt (Datatypes.S fuel) st x) x ((st, 62) :: l) e.
Proof.
  intros S NL. cbn [lex_gt]. here S.
  rewrite NL.
  arm E2 q l2; [sym GreaterDot (run_operator x st GreaterDot _ _ _ _ S); fin|].
  arm E4 q l2.
  - bn S. here S0. arm E5 q2 l3.
    + sym GreaterEqualDot (run_operator x0 st GreaterEqualDot _ _ _ _ S0); fin.
    + sym GreaterEqual (run_emit_symbol x0 st GreaterEqual _ _ S0); fin.
  - sym Greater (run_emit_symbol x st Greater _ _ S); fin.
Qed.

Lemma gt_spec e fuel x p l : (0 < fuel)%nat -> sees x ((p, 62) :: l) e -> placed ((p, 62) :: l) e ->
  consumed ((next_char ;; lex_gt (Datatypes.S fuel) p) x) x ((p, 62) :: l) e.
Proof.
  intros F H PL. bn H.
  destruct (match option_map snd (hd_error l) with Some d => d =? 62 | None => false end) eqn:E.
  2:{ left. eapply emitted_pending; [exact P|]. apply gt_single; auto. }
  cbn [lex_gt]. here S. rewrite E. apply is_char in E as (q & l2 & ->). cbn [hd_error option_map snd N.eqb Pos.eqb].
  bn S. here S0. arm E1 q2 l3.
  - bn S0. apply (run_spec 62 e GtGt (lex_gt fuel)); auto.
    + apply no_longer. reflexivity.
    + repeat split; discriminate.
    + intros y st l HS NE. destruct fuel as [|fuel]; [lia|]. apply gt_single; auto.
    + congruence.
  - left. sym GtGt (run_emit_symbol x1 p GtGt _ _ S0); try fin. apply (run_no_conflict 62 2); [lia|assumption].
Qed.

Lemma not_equals (l : list (N * N)) :
  match option_map snd (hd_error l) with Some d => d =? 61 | None => false end = false -> ~ followed_by "=" (map snd l).
Proof. intros E (r & F). destruct l as [|[q d] l]; [discriminate F|]. cbn in *. injection F as -> F. discriminate. Qed.

Lemma emitted_equals ps n o x x' (L w l' : list (N * N)) e :
  o = (Ok tt, x') -> sees x' l' e -> pending x' = (pending x ++ ahead L e ps)%list ->
  equals ps n -> L = (w ++ l')%list -> map snd w = writing ps ->
  match option_map snd (hd_error l') with Some d => d =? 61 | None => false end = false ->
  emitted o x L e.
Proof.
  intros -> S' P' Q -> W N. exists ps, l'. split; [|split].
  - exists x', w. conj; auto.
  - apply items_one. eapply item_equals; [exact Q|]. apply not_equals. exact N.
  - destruct Q; discriminate.
Qed.

Lemma equals_spec e x p l : sees x ((p, 61) :: l) e -> placed ((p, 61) :: l) e ->
  consumed (lex_equals x) x ((p, 61) :: l) e.
Proof.
  intros H PL. unfold lex_equals. bp. bn H. here S.
  arm E1 q l2.
  2:{ destruct (run_emit_symbol x0 p Equal _ _ S) as (x' & R & S' & P'). rewrite R. left.
      eapply (emitted_equals [Tok (Symbol Equal) (str "=")] 1); [reflexivity|exact S'| |constructor|two|reflexivity|exact E1].
      rewrite P', P. reflexivity. }
  bn S. here S0. arm E2 q2 l3.
  2:{ destruct (run_emit_symbol x1 p EqualEqual _ _ S0) as (x' & R & S' & P'). rewrite R. left.
      eapply (emitted_equals [Tok (Symbol EqualEqual) (str "==")] 2); [reflexivity|exact S'| |constructor|two|reflexivity|exact E2].
      rewrite P', P0, P. reflexivity. }
  bn S0. b0. chs.
  destruct (match option_map snd (hd_error l3) with Some d => d =? 61 | None => false end) eqn:E3; cbn [negb].
  2:{ bp. right. eexists. exists x2. split; [reflexivity|]. exists [], (str "===").
      cbn [error_kind error_start error_end map snd]. split; [apply (bad_triple_equal (map snd l3)); apply not_equals; exact E3|reflexivity]. }
  destruct (run_loop_spec 4 8 61 p 3 x2 l3 e) as [(m & w & l' & x' & -> & W & B & D & R & S' & P')|(w & l' & x' & -> & W & R)]; auto; try lia.
  2:{ right. erewrite bind_err by exact R. apply (merge_conflict_fails 61); auto. }
  left. erewrite bind_ok by exact R. clear R.
  destruct (pairs_spec EqualEqual e l' (4 + m) (3 + m) p x' ltac:(lia) S') as (x4 & R4 & S4 & P4).
  erewrite bind_ok by exact R4. clear R4.
  assert (PP : pending x' = pending x) by congruence. rewrite PP in P4. clear P P0 P1 P' PP.
  apply map_repeat_inv3 in W; [|lia].
  destruct W as [(-> & ->)|[(-> & a & ->)|[(-> & a & b & ->)|(-> & a & b & d & ->)]]];
    cbn [app placed pos] in PL; cbn [pair_end pair_tokens Nat.add fst snd] in *;
    decompose [and] PL; clear PL;
    repeat match goal with Q : 61 < 128 -> _ |- _ => specialize (Q eq_refl ltac:(discriminate)) end; subst.
  - cbn [app] in E3. congruence.
  - eapply (emitted_equals [Tok (Symbol EqualEqual) (str "=="); Tok (Symbol EqualEqual) (str "==")] 4);
      [reflexivity|exact S4| |constructor|instantiate (1 := [_; _; _; _]); reflexivity|reflexivity|exact D].
    rewrite P4. cbn. places.
  - destruct (run_emit_symbol x4 (p + 2 + 2) Equal _ _ S4) as (x5 & R5 & S5 & P5). rewrite R5.
    eapply (emitted_equals [Tok (Symbol EqualEqual) (str "=="); Tok (Symbol EqualEqual) (str "=="); Tok (Symbol Equal) (str "=")] 5);
      [reflexivity|exact S5| |constructor|instantiate (1 := [_; _; _; _; _]); reflexivity|reflexivity|exact D].
    rewrite P5, P4, <- app_assoc. cbn. places.
  - eapply (emitted_equals [Tok (Symbol EqualEqual) (str "=="); Tok (Symbol EqualEqual) (str "=="); Tok (Symbol EqualEqual) (str "==")] 6);
      [reflexivity|exact S4| |constructor|instantiate (1 := [_; _; _; _; _; _]); reflexivity|reflexivity|exact D].
    rewrite P4. cbn. places.
Qed.
