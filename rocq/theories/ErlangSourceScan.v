(** The scanner takes the text of the builder of Erlang source apart again. *)
From Coq Require Import String NArith ZArith List Bool Lia ZifyBool ZifyN.
From Verif Require Import Text TextProofs StringsSpec Erl ErlangSource ErlangSourceSpec ErlangSourceRun.
Import ListNotations.
Local Open Scope nat_scope.
Local Open Scope list_scope.

Definition tokens : lexemes -> list token :=
  flat_map (fun x => match fst x with Some t => [t] | None => [] end).
Lemma tokens_app a b : tokens (a ++ b) = tokens a ++ tokens b.
Proof. apply flat_map_app. Qed.

(** Every lexeme is scanned where it stands, if [r] follows. *)
Fixpoint chain (l : lexemes) (r : text) : Prop :=
  match l with
  | [] => True
  | (o, s) :: l => lex1 (s ++ text_of l ++ r) = Some (o, text_of l ++ r) /\ s <> [] /\ chain l r
  end.
Lemma chain_app a b r : chain a (text_of b ++ r) -> chain b r -> chain (a ++ b) r.
Proof.
  induction a as [|[o s] a IH]; cbn [chain app]; intros A B; [exact B|].
  destruct A as (L & N & A). rewrite text_of_app, <- app_assoc. auto.
Qed.

Lemma scan_chain l : chain l [] -> forall n, length (text_of l) <= n ->
  scan_fuel n (text_of l) = Some (tokens l).
Proof.
  induction l as [|[o s] l IH]; intros C n L.
  - destruct n; reflexivity.
  - destruct C as (E & N & C). rewrite app_nil_r in E.
    change (text_of ((o, s) :: l)) with (s ++ text_of l) in *.
    destruct s as [|c s]; [contradiction N; reflexivity|].
    destruct n as [|n]; [cbn in L; lia|].
    cbn [app scan_fuel]. cbn [app] in E. rewrite E, IH.
    + destruct o; reflexivity.
    + exact C.
    + cbn [app length] in L. rewrite app_length in L. lia.
Qed.
Theorem scan_text l : chain l [] -> scan (text_of l) = Some (tokens l).
Proof. intro C. apply scan_chain; [exact C|apply le_n]. Qed.

(** ** What may come after a word *)
Definition dotted (r : text) : bool := match r with [] => true | c :: _ => white c end.
Definition soft (r : text) : bool :=
  match r with
  | [] => true
  | c :: r => existsb (N.eqb c) [44; 59; 32; 10; 41; 93; 125; 62; 58; 47; 40; 45]%N
              || (c =? 46)%N && dotted r
  end.

Lemma soft_not_name r : soft r = true -> match r with [] => True | c :: _ => name_char c = false end.
Proof.
  destruct r as [|c r]; [intros; exact I|]. cbn. intro H.
  unfold name_char, is_alphanumeric, is_digit, is_upper, is_lower. lia.
Qed.
Lemma span_word w r : forallb name_char w = true -> soft r = true -> span_while name_char (w ++ r) = (w, r).
Proof.
  intros W S. apply soft_not_name in S.
  induction w as [|c w IH]; cbn [app span_while].
  - destruct r as [|c r]; [reflexivity|]. cbn. rewrite S. reflexivity.
  - cbn in W. apply andb_prop in W. destruct W as [C W]. rewrite C, IH by exact W. reflexivity.
Qed.

Lemma lex_var x r : variable_name x = true -> soft r = true -> lex1 (x ++ r) = Some (Some (TVar x), r).
Proof.
  intros V S. destruct x as [|c x]; [discriminate V|].
  cbn in V. apply andb_prop in V. destruct V as [C V].
  assert (W : forallb name_char (c :: x) = true).
  { cbn. rewrite V, andb_true_r. unfold name_char, is_alphanumeric, is_digit, is_upper, is_lower in *. lia. }
  pose proof (span_word (c :: x) r W S) as G. cbn [app] in *. unfold lex1.
  assert (K1 : white c = false) by (unfold white, is_upper in *; lia).
  assert (K2 : is_digit c = false) by (unfold is_digit, is_upper in *; lia).
  rewrite K1, K2, C, G. reflexivity.
Qed.
Lemma lex_word w r : match w with [] => false | c :: _ => is_lower c end = true ->
  forallb name_char w = true -> soft r = true -> lex1 (w ++ r) = Some (Some (word w), r).
Proof.
  intros L W S. destruct w as [|c w]; [discriminate L|].
  pose proof (span_word (c :: w) r W S) as G. cbn [app] in *. unfold lex1.
  assert (K1 : white c = false) by (unfold white, is_lower in *; lia).
  assert (K2 : is_digit c = false) by (unfold is_digit, is_lower in *; lia).
  assert (K3 : is_upper c || (c =? 95)%N = false) by (unfold is_upper, is_lower in *; lia).
  rewrite K1, K2, K3, L, G. reflexivity.
Qed.

(** ** Atoms *)
Lemma words_reserved :
  forallb (fun p => is_erlang_reserved_word (fst p)) words = true /\
  forallb is_erlang_reserved_word other_words = true.
Proof. split; vm_compute; reflexivity. Qed.
Lemma lookup_in {A} name (l : list (text * A)) a : lookup name l = Some a -> In (name, a) l.
Proof.
  induction l as [|[n b] l IH]; [discriminate|]. cbn.
  destruct (text_eqb name n) eqn:E.
  - intros [= ->]. apply text_eqb_eq in E. subst. left. reflexivity.
  - intro H. right. apply IH, H.
Qed.
Lemma not_reserved a : is_erlang_reserved_word a = false -> word a = TAtom a.
Proof.
  intro R. destruct words_reserved as [W O]. unfold word.
  destruct (lookup a words) as [s|] eqn:L.
  - apply lookup_in in L. rewrite forallb_forall in W. apply W in L. cbn [fst] in L. congruence.
  - destruct (existsb (text_eqb a) other_words) eqn:E; [|reflexivity].
    apply existsb_exists in E. destruct E as (w & I & Q). apply text_eqb_eq in Q. subst w.
    rewrite forallb_forall in O. apply O in I. congruence.
Qed.
Lemma quoted_plain q a r : forallb (fun c => negb ((c =? q) || (c =? 92))%N) a = true ->
  quoted q Plain (a ++ q :: r) = Some (a, r).
Proof.
  induction a as [|c a IH]; cbn [app quoted].
  - rewrite N.eqb_refl. reflexivity.
  - cbn [forallb]. intro H. apply andb_prop in H. destruct H as [C H].
    destruct (c =? q)%N eqn:E1; [discriminate C|]. destruct (c =? 92)%N eqn:E2; [discriminate C|].
    rewrite IH by exact H. reflexivity.
Qed.
Lemma lex_atom a r : atom_name a = true -> soft r = true ->
  lex1 (quote_atom_name a ++ r) = Some (Some (TAtom a), r).
Proof.
  intros A S.
  assert (Q : lex1 (([39%N] ++ a ++ [39%N]) ++ r) = Some (Some (TAtom a), r)).
  { rewrite <- app_assoc. cbn [app]. rewrite <- app_assoc. cbn [app lex1].
    change (white 39) with false. change (is_digit 39) with false. cbn [orb].
    change (is_upper 39) with false. change (is_lower 39) with false. cbn [orb N.eqb Pos.eqb].
    rewrite (quoted_plain 39 a r A). reflexivity. }
  unfold quote_atom_name. destruct (is_erlang_reserved_word a) eqn:R; [exact Q|].
  destruct (atom_name_regex a) eqn:X; [|exact Q].
  rewrite lex_word; [rewrite not_reserved by exact R; reflexivity| | |exact S].
  - destruct a as [|c a]; [discriminate X|]. cbn in X. apply andb_prop in X. apply X.
  - destruct a as [|c a]; [discriminate X|]. cbn in X. apply andb_prop in X. destruct X as [L X].
    cbn [forallb]. apply andb_true_intro. split.
    + unfold name_char, is_alphanumeric. rewrite L, !orb_true_r. reflexivity.
    + rewrite forallb_forall in *. intros d I. specialize (X d I).
      unfold name_char, is_alphanumeric, is_lower, is_upper, is_digit in *. lia.
Qed.

(** ** Numbers *)
Lemma span_digits w r : forallb is_digit w = true ->
  match r with [] => True | c :: _ => is_digit c = false end -> span_while is_digit (w ++ r) = (w, r).
Proof.
  intros W S. induction w as [|c w IH]; cbn [app span_while].
  - destruct r as [|c r]; [reflexivity|]. cbn. rewrite S. reflexivity.
  - cbn in W. apply andb_prop in W. destruct W as [C W]. rewrite C, IH by exact W. reflexivity.
Qed.
Lemma soft_not_digit r : soft r = true -> match r with [] => True | c :: _ => is_digit c = false end.
Proof. destruct r as [|c r]; [intros; exact I|]. cbn. unfold is_digit. lia. Qed.
Lemma decimal_forallb n : forallb is_digit (decimal n) = true.
Proof. rewrite forallb_forall. apply Forall_forall, decimal_digits. Qed.

Lemma lex_num n r : soft r = true -> lex1 (decimal n ++ r) = Some (Some (TInt n), r).
Proof.
  intro S. destruct (decimal_first n) as (c & w & D & _).
  pose proof (decimal_forallb n) as F.
  pose proof (span_digits (decimal n) r F (soft_not_digit r S)) as G.
  rewrite D in *. cbn [app] in *. unfold lex1.
  cbn in F. apply andb_prop in F. destruct F as [C F].
  assert (K1 : white c = false) by (unfold white, is_digit in *; lia).
  rewrite K1, C, G, <- D, decimal_value_decimal.
  pose proof (soft_not_name r S) as N. destruct r as [|d r]; [reflexivity|].
  rewrite N. cbn in S.
  assert (K2 : (d =? 46)%N && head_is is_digit r = false).
  { destruct (d =? 46)%N eqn:E; [|reflexivity]. apply N.eqb_eq in E. subst d. cbn in S.
    destruct r as [|e r]; [reflexivity|]. cbn in *. unfold white, is_digit in *. lia. }
  rewrite K2. assert (K3 : (d =? 35)%N = false) by lia. rewrite K3. reflexivity.
Qed.
Lemma lex_fraction w f r : forallb is_digit w = true -> w <> [] -> forallb is_digit f = true -> f <> [] ->
  soft r = true -> lex1 ((w ++ str "." ++ f) ++ r) = Some (Some (TFloat w f), r).
Proof.
  intros W NW F NF S. rewrite <- !app_assoc.
  assert (G : span_while is_digit (w ++ str "." ++ f ++ r) = (w, str "." ++ f ++ r))
    by (apply span_digits; [exact W|reflexivity]).
  pose proof (span_digits f r F (soft_not_digit r S)) as G'.
  destruct w as [|c w]; [contradiction NW; reflexivity|]. cbn [app] in *. unfold lex1.
  cbn in W. apply andb_prop in W. destruct W as [C W].
  assert (K1 : white c = false) by (unfold white, is_digit in *; lia).
  rewrite K1, C, G. destruct f as [|d f]; [contradiction NF; reflexivity|].
  cbn in F. apply andb_prop in F. destruct F as [D F].
  change (str "." ++ (d :: f) ++ r) with (46%N :: (d :: f) ++ r).
  change ((46 =? 46)%N) with true. cbn [app head_is]. rewrite D. cbn [andb].
  cbn [app] in G'. rewrite G'.
  pose proof (soft_not_name r S) as N. destruct r as [|e r]; [reflexivity|].
  cbn [head_is]. rewrite N. cbn in S. assert (K3 : (e =? 35)%N = false) by lia. rewrite K3. reflexivity.
Qed.

(** ** Strings *)
Lemma nibble_hex c : nibble c = hex_digit c.
Proof.
  unfold nibble, hex_digit, is_digit.
  assert (H : (c < 128)%N \/ (128 <= c)%N) by lia. destruct H as [H|H].
  - assert (A : forallb (fun n => let c := N.of_nat n in
        match nibble c, hex_digit c with
        | Some a, Some b => (a =? b)%N | None, None => true | _, _ => false end) (seq 0 128) = true)
      by (vm_compute; reflexivity).
    rewrite forallb_forall in A. specialize (A (N.to_nat c)). cbv zeta in A. rewrite N2Nat.id in A.
    assert (I : In (N.to_nat c) (seq 0 128)) by (apply in_seq; lia). specialize (A I).
    fold (is_digit c). fold (hex_digit c). fold (nibble c).
    destruct (nibble c), (hex_digit c); try discriminate A; [|reflexivity].
    apply N.eqb_eq in A. subst. reflexivity.
  - assert (P : forall s, forallb (fun d => (d <? 128)%N) s = true -> StringsSpec.position c s = None).
    { induction s as [|d s IH]; [reflexivity|]. cbn. intro B. apply andb_prop in B. destruct B as [D B].
      assert (E : (c =? d)%N = false) by lia. rewrite E, IH by exact B. reflexivity. }
    rewrite !P by (vm_compute; reflexivity).
    assert (E1 : ((48 <=? c) && (c <=? 57))%N = false) by lia.
    assert (E2 : ((97 <=? c) && (c <=? 102))%N = false) by lia.
    assert (E3 : ((65 <=? c) && (c <=? 70))%N = false) by lia.
    rewrite E1, E2, E3. reflexivity.
Qed.
Lemma hex_not c d : hex_digit c = Some d -> (c <> 92 /\ c <> 117 /\ c <> 125)%N.
Proof. unfold hex_digit, is_digit. intro H. repeat split; intros ->; discriminate H. Qed.

Lemma quoted_hex digits n : denotes digits n -> forall seen acc t,
  (acc * 16 ^ N.of_nat (length digits) + n <= 0x10FFFF)%N ->
  quoted 34 (Hex seen acc) (digits ++ 125%N :: t) =
  if code_point (acc * 16 ^ N.of_nat (length digits) + n)
  then option_map (fun '(s, r) => ((acc * 16 ^ N.of_nat (length digits) + n)%N :: s, r)) (quoted 34 Plain t)
  else None.
Proof.
  induction 1 as [c d C|c d s n C D IH]; intros seen acc t B; rewrite nibble_hex in C;
    destruct (hex_not c d C) as (_ & _ & E).
  - cbn [app quoted]. assert (E' : (c =? 125)%N = false) by lia. rewrite E', C. cbn [andb length].
    change ((125 =? 125)%N) with true. cbn [andb].
    change (16 ^ N.of_nat 1)%N with 16%N. rewrite (N.mul_comm acc 16). reflexivity.
  - cbn [app quoted]. assert (E' : (c =? 125)%N = false) by lia. rewrite E', C.
    cbn [length] in *.
    assert (Q : ((16 * acc + d) * 16 ^ N.of_nat (length s) + n =
                 acc * 16 ^ N.of_nat (S (length s)) + (d * 16 ^ N.of_nat (length s) + n))%N).
    { rewrite Nat2N.inj_succ, N.pow_succ_r'. lia. }
    rewrite IH by lia. rewrite Q. reflexivity.
Qed.
Lemma denotes_hex digits n : denotes digits n -> forallb (fun c => match hex_digit c with Some _ => true | None => false end) digits = true.
Proof.
  induction 1 as [c d C|c d s n C D IH]; rewrite nibble_hex in C; cbn; rewrite C; [reflexivity|exact IH].
Qed.
Lemma escape_hex digits t : forallb (fun c => match hex_digit c with Some _ => true | None => false end) digits = true ->
  escape_from 0 (digits ++ t) = digits ++ escape_from 0 t.
Proof.
  induction digits as [|c s IH]; [reflexivity|]. cbn [forallb app escape_from].
  intro H. apply andb_prop in H. destruct H as [C H].
  destruct (hex_digit c) as [d|] eqn:E; [|discriminate C]. apply hex_not in E.
  assert (E1 : (c =? 92)%N = false) by lia. assert (E2 : (c =? 117)%N = false) by lia.
  rewrite E1, E2, IH by exact H. reflexivity.
Qed.

Theorem quoted_contents s m : contents s m -> forall k r, Nat.odd k = false ->
  quoted 34 Plain (escape_from k s ++ 34%N :: r) = Some (m, r).
Proof.
  induction 1 as [|p c s m P N C IH]; intros k r K; [reflexivity|].
  assert (K0 : Nat.odd 0 = false) by reflexivity.
  assert (K1 : Nat.odd (S k) = true) by (rewrite Nat.odd_succ, <- Nat.negb_odd, K; reflexivity).
  destruct P as [c C'| | | | | | |digits n D V].
  - cbn [app escape_from]. assert (E : (c =? 92)%N = false) by lia. rewrite E, K, andb_false_r.
    assert (E' : (c =? 34)%N = false).
    { apply N.eqb_neq. intro Q. subst c. apply N. reflexivity. }
    cbn [app quoted]. rewrite E', E, (IH 0 r K0). reflexivity.
  - cbn -[escape_from]. cbn [escape_from]. cbn. rewrite (IH 0 r K0). reflexivity.
  - cbn. rewrite (IH 0 r K0). reflexivity.
  - cbn. rewrite (IH 0 r K0). reflexivity.
  - cbn. rewrite (IH 0 r K0). reflexivity.
  - cbn. rewrite (IH 0 r K0). reflexivity.
  - assert (K2 : Nat.odd (S (S k)) = false) by (rewrite Nat.odd_succ, <- Nat.negb_odd, K1; reflexivity).
    cbn -[Nat.odd]. rewrite (IH (S (S k)) r K2). reflexivity.
  - change (str "\u{" ++ digits ++ str "}") with (92%N :: 117%N :: 123%N :: digits ++ [125%N]).
    cbn [app escape_from]. change ((92 =? 92)%N) with true. change ((117 =? 92)%N) with false.
    change ((117 =? 117)%N) with true. change ((123 =? 92)%N) with false. change ((123 =? 117)%N) with false.
    rewrite K1. cbn [andb]. rewrite <- !app_assoc, escape_hex by (apply (denotes_hex digits n), D).
    cbn [app escape_from]. change ((125 =? 92)%N) with false. change ((125 =? 117)%N) with false. cbn [andb].
    cbn [app]. rewrite <- app_assoc. cbn [app quoted]. cbn.
    rewrite (quoted_hex digits n D); [|unfold scalar_value in V; lia].
    replace (0 * 16 ^ N.of_nat (length digits) + n)%N with n by lia.
    replace (code_point n) with true.
    + rewrite (IH 0 r K0). reflexivity.
    + symmetry. unfold code_point. unfold scalar_value in V. lia.
Qed.

Lemma escape_head s m r : contents s m -> soft r = true -> triple (escape_from 0 s ++ 34%N :: r) = false.
Proof.
  intros C S. unfold triple. destruct C as [|p c s m P N C].
  - cbn. destruct r as [|d r]; [reflexivity|]. cbn in *. assert (E : (34 =? d)%N = false) by lia.
    cbn in E. rewrite E. reflexivity.
  - destruct P; try reflexivity. cbn [app escape_from].
    assert (E : (c =? 92)%N = false) by lia. rewrite E, andb_false_r. cbn [app starts_with].
    assert (E' : (34 =? c)%N = false).
    { apply N.eqb_neq. intro Q. subst c. apply N. reflexivity. }
    rewrite E'. reflexivity.
Qed.
Lemma lex_literal written value r : contents written value -> soft r = true ->
  lex1 (([34%N] ++ escape_literal_string_content written ++ [34%N]) ++ r) = Some (Some (TString value), r) /\
  lex1 ((126%N :: [34%N] ++ escape_literal_string_content written ++ [34%N]) ++ r) = Some (Some (TBinary value), r).
Proof.
  intros C S. unfold escape_literal_string_content.
  pose proof (escape_head written value r C S) as T.
  pose proof (quoted_contents written value C 0 r eq_refl) as Q.
  cbn [app]. rewrite <- !app_assoc. cbn [app].
  set (t := escape_from 0 written ++ 34%N :: r) in *.
  unfold lex1. 
  change (white 34) with false. change (is_digit 34) with false. change (is_upper 34) with false.
  change (is_lower 34) with false. change ((34 =? 95)%N) with false. change ((34 =? 39)%N) with false.
  change ((34 =? 34)%N) with true.
  change (white 126) with false. change (is_digit 126) with false. change (is_upper 126) with false.
  change (is_lower 126) with false. change ((126 =? 95)%N) with false. change ((126 =? 39)%N) with false.
  change ((126 =? 34)%N) with false. change ((126 =? 126)%N) with true.
  cbn [orb andb negb]. rewrite T, Q. split; reflexivity.
Qed.

(** Documentation *)
Lemma quoted_doc s r : quoted 34 Plain (replace 34 [92; 34]%N (replace 92 [92; 92]%N s) ++ 34%N :: r) = Some (s, r).
Proof.
  induction s as [|c s IH]; [reflexivity|].
  change (replace 92 [92; 92]%N (c :: s)) with
    ((if (c =? 92)%N then [92; 92]%N else [c]) ++ replace 92 [92; 92]%N s).
  unfold replace at 1. rewrite flat_map_app. fold (replace 34 [92; 34]%N (replace 92 [92; 92]%N s)).
  destruct (c =? 92)%N eqn:E.
  - apply N.eqb_eq in E. subst c. cbn. rewrite IH. reflexivity.
  - cbn [flat_map]. destruct (c =? 34)%N eqn:E'.
    + apply N.eqb_eq in E'. subst c. cbn. rewrite IH. reflexivity.
    + cbn [app quoted]. rewrite E', E, IH. reflexivity.
Qed.
Lemma doc_head s r : soft r = true ->
  triple (replace 34 [92; 34]%N (replace 92 [92; 92]%N s) ++ 34%N :: r) = false.
Proof.
  intro S. unfold triple. destruct s as [|c s].
  - cbn. destruct r as [|d r]; [reflexivity|]. cbn in *. assert (E : (34 =? d)%N = false) by lia.
    cbn in E. rewrite E. reflexivity.
  - change (replace 92 [92; 92]%N (c :: s)) with
      ((if (c =? 92)%N then [92; 92]%N else [c]) ++ replace 92 [92; 92]%N s).
    unfold replace at 1. rewrite flat_map_app.
    destruct (c =? 92)%N eqn:E; [reflexivity|]. cbn [flat_map]. destruct (c =? 34)%N eqn:E'; [reflexivity|].
    cbn [app starts_with]. rewrite N.eqb_sym, E'. reflexivity.
Qed.
Lemma lex_doc_string s r : soft r = true ->
  lex1 (([126; 34]%N ++ replace 34 [92; 34]%N (replace 92 [92; 92]%N s) ++ [34%N]) ++ r) =
  Some (Some (TBinary s), r).
Proof.
  intro S. pose proof (doc_head s r S) as T. pose proof (quoted_doc s r) as Q.
  rewrite <- !app_assoc. cbn [app].
  set (t := replace 34 [92; 34]%N (replace 92 [92; 92]%N s) ++ 34%N :: r) in *.
  unfold lex1. 
  change (white 126) with false. change (is_digit 126) with false. change (is_upper 126) with false.
  change (is_lower 126) with false. change ((126 =? 95)%N) with false. change ((126 =? 39)%N) with false.
  change ((126 =? 34)%N) with false. change ((126 =? 126)%N) with true. change ((34 =? 34)%N) with true.
  cbn [orb andb negb]. rewrite T, Q. reflexivity.
Qed.

(** ** Layouts *)
Lemma chain_one o s r : s <> [] -> lex1 (s ++ r) = Some (o, r) -> chain [(o, s)] r.
Proof. intros N L. repeat split; assumption. Qed.
Lemma chain_var x r : variable_name x = true -> soft r = true -> chain (var x) r.
Proof.
  intros V S. apply chain_one; [intros ->; discriminate V|apply lex_var; assumption].
Qed.
Lemma quote_nonempty a : quote_atom_name a <> [].
Proof.
  unfold quote_atom_name. destruct (is_erlang_reserved_word a); [discriminate|].
  destruct (atom_name_regex a) eqn:X; [|discriminate]. intros ->. discriminate X.
Qed.
Lemma chain_atm a r : atom_name a = true -> soft r = true -> chain (atm a) r.
Proof. intros A S. apply chain_one; [apply quote_nonempty|apply lex_atom; assumption]. Qed.
Lemma decimal_head n : exists c w, decimal n = c :: w /\ is_digit c = true.
Proof.
  destruct (decimal_first n) as (c & w & D & _). exists c, w. split; [exact D|].
  pose proof (decimal_forallb n) as F. rewrite D in F. cbn in F. apply andb_prop in F. apply F.
Qed.
Lemma chain_num n r : soft r = true -> chain (num n) r.
Proof.
  intro S. apply chain_one; [|apply lex_num, S].
  destruct (decimal_head n) as (c & w & D & _). rewrite D. discriminate.
Qed.
Lemma chain_word w r : match w with [] => false | c :: _ => is_lower c end = true ->
  forallb name_char w = true -> word w = TAtom w -> soft r = true -> chain [(Some (TAtom w), w)] r.
Proof.
  intros L W A S. apply chain_one; [intros ->; discriminate L|]. rewrite <- A. apply lex_word; assumption.
Qed.
Lemma chain_sp r : chain sp r.
Proof. repeat split; discriminate. Qed.
Lemma chain_nl i r : chain (nl i) r.
Proof.
  unfold nl. cbn [chain]. split; [reflexivity|]. split; [discriminate|].
  induction i as [|i IH]; [exact I|]. cbn [repeat chain]. repeat split; [discriminate|exact IH].
Qed.

Definition free (s : sym) : bool :=
  match s with
  | LParen | RParen | LBracket | RBracket | LBrace | RBrace | LBin | RBin | Comma | Semicolon
  | ColonColon | Arrow | FatArrow | Hash => true
  | _ => false
  end.
Lemma chain_free s r : free s = true -> chain (sy s) r.
Proof. intro F. destruct s; try discriminate F; repeat split; discriminate. Qed.
Lemma chain_sy_sp s r : chain (sy s) (32%N :: r).
Proof. destruct s; repeat split; discriminate. Qed.
Definition keyword (s : sym) : bool :=
  match s with KCase | KOf | KEnd | KWhen | KBegin | KFun => true | _ => false end.
Lemma chain_keyword s r : keyword s = true -> soft r = true -> chain (sy s) r.
Proof.
  intros K S. destruct s; try discriminate K; (apply chain_one; [discriminate|]);
    apply lex_word; try reflexivity; exact S.
Qed.
(** Before a character that does not lengthen it. *)
Definition longer (s : sym) (c : N) : bool :=
  match s with
  | Colon => (c =? 58) || (c =? 61)
  | Slash => (c =? 61)
  | Minus => (c =? 45) || (c =? 62)
  | Plus => (c =? 43)
  | _ => true
  end%N.
Lemma chain_before s c r : longer s c = false -> chain (sy s) (c :: r).
Proof.
  intro L.
  assert (E : forall d, (c =? d)%N = false -> (d =? c)%N = false) by (intros d H; rewrite N.eqb_sym; exact H).
  destruct s; try discriminate L; cbn [longer] in L; (apply chain_one; [discriminate|]);
    try (apply orb_false_elim in L; destruct L as [L L2]; apply E in L2; cbn in L2);
    apply E in L; cbn in L; cbn; rewrite ?L, ?L2; reflexivity.
Qed.

Lemma chain_items sep pre l :
  (forall r, soft (text_of sep ++ r) = true) ->
  (forall x, In x l -> forall r, soft r = true -> chain (pre ++ x) r /\ chain (sep ++ pre ++ x) r) ->
  forall first r, soft r = true -> chain (items sep pre first l) r.
Proof.
  intro P. induction l as [|x l IH]; intros X first r S; [exact I|].
  cbn [items].
  assert (T : soft (text_of (items sep pre false l) ++ r) = true).
  { destruct l as [|y l]; [exact S|]. cbn [items]. rewrite text_of_app, <- app_assoc. apply P. }
  assert (R : chain (items sep pre false l) r) by (apply IH; [intros y I; apply X; right; exact I|exact S]).
  destruct (X x (or_introl eq_refl) _ T) as [A B].
  destruct first.
  - cbn [app]. rewrite app_assoc. apply chain_app; assumption.
  - rewrite !app_assoc, <- (app_assoc sep). apply chain_app; assumption.
Qed.
(** The separators that need nothing of what follows. *)
Lemma chain_listed sep pre l :
  (forall r, soft (text_of sep ++ r) = true) -> (forall r, chain sep r) -> (forall r, chain pre r) ->
  (forall x, In x l -> forall r, soft r = true -> chain x r) ->
  forall first r, soft r = true -> chain (items sep pre first l) r.
Proof.
  intros P A B X. apply chain_items; [exact P|].
  intros x I r S. split; repeat apply chain_app; auto.
Qed.
Lemma chain_comma r : chain comma r.
Proof. apply chain_app; [apply chain_free; reflexivity|apply chain_sp]. Qed.
Lemma chain_commas l : (forall x, In x l -> forall r, soft r = true -> chain x r) ->
  forall first r, soft r = true -> chain (items comma [] first l) r.
Proof.
  intro X. apply chain_listed; [reflexivity|apply chain_comma|intro; exact I|exact X].
Qed.
Lemma chain_lines l i : (forall x, In x l -> forall r, soft r = true -> chain x r) ->
  forall first r, soft r = true -> chain (items (sy Comma) (nl i) first l) r.
Proof.
  intro X. apply chain_listed; [reflexivity|intro; apply chain_free; reflexivity|apply chain_nl|exact X].
Qed.
(** What follows a word is soft if the items are. *)
Lemma soft_items sep pre l r : (forall t, soft (text_of pre ++ t) = true) -> soft r = true ->
  soft (text_of (items sep pre true l) ++ r) = true.
Proof.
  intros P S. destruct l as [|x l]; [exact S|]. cbn [items app]. rewrite text_of_app, <- app_assoc. apply P.
Qed.
Lemma soft_nl i t : soft (text_of (nl i) ++ t) = true.
Proof. reflexivity. Qed.

Lemma chain_parens b l r : (forall t, soft t = true -> chain l t) -> soft r = true -> chain (parens b l) r.
Proof.
  intros L S. destruct b; [|apply L, S]. cbn [parens].
  apply chain_app; [apply chain_free; reflexivity|]. apply chain_app; [apply L; reflexivity|apply chain_free; reflexivity].
Qed.

Lemma chain_int z r : soft r = true -> chain (lex_int z) r.
Proof.
  intro S. unfold lex_int. destruct (z <? 0)%Z; [|apply chain_num, S].
  apply chain_app; [|apply chain_num, S]. rewrite text_of_num.
  destruct (decimal_head (Z.abs_N z)) as (c & w & D & G). rewrite D. apply chain_before.
  unfold longer, is_digit in *. lia.
Qed.
Lemma chain_float f r : float_digits f -> soft r = true -> chain (lex_float f) r.
Proof.
  intros (W & F & N & _) S. unfold lex_float. cbv zeta.
  set (fr := if zeros (fraction f) then str "0" else fraction f).
  assert (FD : forallb is_digit fr = true /\ fr <> []).
  { unfold fr. destruct (zeros (fraction f)) eqn:Z; [split; [reflexivity|discriminate]|].
    split; [exact F|]. intro E. rewrite E in Z. discriminate Z. }
  destruct FD as [FD FN].
  assert (G : chain [(Some (TFloat (whole f) fr), whole f ++ str "." ++ fr)] r).
  { apply chain_one; [|apply lex_fraction; assumption]. intro E. apply app_eq_nil in E. destruct E; contradiction. }
  assert (B : forall s, longer s = longer Minus \/ longer s = longer Plus ->
    chain (sy s) (text_of [(Some (TFloat (whole f) fr), whole f ++ str "." ++ fr)] ++ r)).
  { intros s L. rewrite text_of_one. destruct (whole f) as [|c w]; [contradiction N; reflexivity|].
    cbn in W. apply andb_prop in W. destruct W as [C _]. cbn [app]. apply chain_before.
    destruct L as [L|L]; rewrite L; unfold longer, is_digit in *; lia. }
  destruct (negative f); [apply chain_app; [apply B; auto|exact G]|].
  destruct (zeros (whole f) && zeros (fraction f)); [apply chain_app; [apply B; auto|exact G]|exact G].
Qed.
Lemma chain_string sv written value r : contents written value -> soft r = true ->
  chain (lex_string sv written value) r.
Proof.
  intros C S. destruct (lex_literal written value r C S) as [A B].
  destruct sv; (apply chain_one; [discriminate|]); assumption.
Qed.
Lemma chain_specifiers l r : soft r = true -> chain (lex_specifiers l) r.
Proof.
  intro S. unfold lex_specifiers. destruct (sort_specifiers l) as [|s l']; [exact I|].
  set (l0 := s :: l') in *.
  assert (W : forall s r, soft r = true -> chain (lex_specifier s) r).
  { clear. intros s r S. destruct s; try (apply chain_word; [reflexivity|reflexivity|reflexivity|exact S]).
    cbn [lex_specifier]. change (?a :: sy Colon ++ num n) with ([a] ++ sy Colon ++ num n).
    apply chain_app; [apply chain_word; reflexivity|]. apply chain_app; [|apply chain_num, S].
    rewrite text_of_num. destruct (decimal_head n) as (c & w & D & G). rewrite D. apply chain_before.
    unfold longer, is_digit in *. lia. }
  apply chain_app.
  - unfold l0. cbn [map items app]. rewrite text_of_app, <- app_assoc.
    destruct s; apply chain_before; reflexivity.
  - apply chain_items; [reflexivity| |exact S].
    intros x I r' S'. apply in_map_iff in I. destruct I as (s' & <- & _). cbn [app].
    split; [apply W, S'|]. apply chain_app; [|apply W, S'].
    destruct s'; apply chain_before; reflexivity.
Qed.

(** After a colon: the size of a segment, or the name of a function. *)
Lemma atm_head a r : atom_name a = true -> chain (sy Colon) (text_of (atm a) ++ r).
Proof.
  intro A. rewrite text_of_atm. unfold quote_atom_name.
  destruct (is_erlang_reserved_word a); [apply chain_before; reflexivity|].
  destruct (atom_name_regex a) eqn:X; [|apply chain_before; reflexivity].
  destruct a as [|c a]; [discriminate X|]. cbn in X. apply andb_prop in X. destruct X as [X _].
  cbn [app]. apply chain_before. unfold longer, is_lower in *. lia.
Qed.
Lemma size_head n i r : wf Expression n -> has_sign n = false -> 
  chain (sy Colon) (text_of (parens (negb (simple Expression n)) (layout false false false i Expression n)) ++ r).
Proof.
  intros W H. destruct n; cbn [simple negb parens]; try (apply chain_before; reflexivity); cbn [layout andb].
  - rewrite text_of_var. cbn in W. destruct name as [|c x]; [discriminate W|]. cbn in W.
    apply andb_prop in W. destruct W as [W _]. cbn [app]. apply chain_before. unfold longer, is_upper in *. lia.
  - cbn in H. unfold lex_int. rewrite H. cbn [app]. rewrite text_of_num.
    destruct (decimal_head (Z.abs_N z)) as (c & w & D & G). rewrite D. apply chain_before.
    unfold longer, is_digit in *. lia.
  - cbn [has_sign] in H. unfold float_meaning in H. cbv zeta in H. unfold lex_float. cbv zeta.
    change (forallb (N.eqb 48)) with zeros in H.
    destruct (negative f); [discriminate H|].
    destruct (zeros (whole f) && zeros (fraction f)); [discriminate H|]. cbn [app]. rewrite text_of_one.
    destruct W as (W & _ & N & _). destruct (whole f) as [|c w]; [contradiction N; reflexivity|].
    cbn in W. apply andb_prop in W. destruct W as [C _]. cbn [app]. apply chain_before.
    unfold longer, is_digit in *. lia.
Qed.

Definition chains (n : node) : Prop := forall k tail sv wrap i r, wf k n -> soft r = true ->
  chain (layout tail sv wrap i k n) r.

Lemma in_each {A} (P : A -> Prop) l : each P l -> forall x, In x l -> P x.
Proof. induction l as [|a l IH]; cbn; [intros _ ? []|]. intros [H E] x [<-|I]; auto. Qed.
Ltac leaf :=
  first [ exact I
        | apply chain_sp | apply chain_nl | apply chain_comma
        | apply chain_free; reflexivity | apply chain_sy_sp
        | apply chain_keyword; [reflexivity|try reflexivity]
        | apply chain_num; try reflexivity ].
Ltac chained := repeat (apply chain_app); try leaf.

Lemma each_chains k l tail sv wrap i : (forall n, In n l -> chains n) -> each (wf k) l ->
  forall x, In x (map (layout tail sv wrap i k) l) -> forall r, soft r = true -> chain x r.
Proof.
  intros C W x I r S. apply in_map_iff in I. destruct I as (n & <- & I).
  apply (C n I); [apply (in_each _ _ W), I|exact S].
Qed.

Theorem all_chains : forall m n, size n < m -> chains n.
Proof.
  induction m as [|m IH]; intros n L; [lia|].
  assert (SUB : forall l, list_sum (map size l) < m -> forall x, In x l -> chains x).
  { intros l S x I. apply IH. pose proof (in_sum size l x I). lia. }
  intros k tail sv wrap i r W S.
  assert (LIST : is_list n = true -> chain (layout tail sv wrap i k n) r).
  { intro IL. destruct n; try discriminate IL; cbn [size] in L; cbn [layout is_list negb]; rewrite andb_false_r.
    - destruct tail; chained.
    - destruct W as [Wh Wt].
      assert (T : forall r, soft (text_of (layout true false false i k n2) ++ r) = true)
        by (intro r'; destruct n2; reflexivity).
      apply chain_app; [destruct tail; leaf|].
      apply chain_app; [apply IH; [lia|exact Wh|apply T]|apply IH; [lia|exact Wt|exact S]]. }
  destruct (is_list n) eqn:IL; [apply LIST; reflexivity|]. clear LIST.
  assert (G : forall r, soft r = true -> chain (layout false sv wrap i k n) r).
  { clear r S. intros r S. destruct n; try discriminate IL; cbn [layout andb]; cbn [size] in L; cbn [wf] in W.
    - apply chain_var; assumption.
    - apply chain_var; [reflexivity|exact S].
    - apply chain_int, S.
    - apply chain_float; assumption.
    - apply chain_string; assumption.
    - apply chain_atm; assumption.
    - chained. apply chain_commas; [|reflexivity]. apply each_chains; [apply SUB; lia|exact W].
    - chained. apply chain_commas; [|reflexivity].
      intros x I r' S'. apply in_map_iff in I. destruct I as ([v [s specs]] & <- & I).
      pose proof (in_each _ _ W _ I) as (Wv & _ & Ws).
      apply (in_sum (fun '(v, (s, _)) => size v + match s with Some n => size n | None => 0 end)) in I.
      assert (SS : forall t, soft t = true -> soft (text_of (lex_specifiers specs) ++ t) = true).
      { intros t T. unfold lex_specifiers. destruct (sort_specifiers specs); [exact T|reflexivity]. }
      apply chain_app; [|apply chain_app].
      + apply chain_parens; [intros t T; apply IH; [lia|exact Wv|exact T]|].
        destruct s as [n|]; [reflexivity|]. apply SS, S'.
      + destruct s as [n|]; [|exact Logic.I]. destruct Ws as [Wn Hn].
        apply chain_app; [apply size_head; assumption|].
        apply chain_parens; [intros t T; apply IH; [lia|exact Wn|exact T]|apply SS, S'].
      + apply chain_specifiers, S'.
    - destruct W as [-> W]. chained. apply chain_lines; [|reflexivity].
      intros x I r' S'. apply in_map_iff in I. destruct I as ([x1 x2] & <- & I).
      pose proof (in_each _ _ W _ I) as (W1 & W2).
      apply (in_sum (fun '(a, b) => size a + size b)) in I.
      chained; apply IH; try assumption; try lia; reflexivity.
    - destruct W as (-> & _ & W). chained; [rewrite text_of_app, <- app_assoc; apply soft_items; reflexivity| |exact S].
      apply chain_lines; [|reflexivity]. apply each_chains; [apply SUB; lia|exact W].
    - destruct W as (-> & Wf & _ & W). chained.
      + apply chain_parens; [intros t T; apply IH; [lia|exact Wf|exact T]|reflexivity].
      + apply chain_commas; [|reflexivity]. apply each_chains; [apply SUB; lia|exact W].
    - destruct W as (-> & Wm & Wf & W). chained.
      + apply chain_atm; [exact Wm|reflexivity].
      + rewrite text_of_app, <- app_assoc. apply atm_head, Wf.
      + apply chain_atm; [exact Wf|reflexivity].
      + apply chain_commas; [|reflexivity]. apply each_chains; [apply SUB; lia|exact W].
    - destruct W as (-> & _ & W & _). chained. apply IH; [lia|exact W|exact S].
    - destruct W as (-> & _ & Wa & Wb & _). apply chain_parens; [|exact S].
      intros t T. chained; apply IH; try assumption; try lia; reflexivity.
    - destruct W as (Wp & Wn). chained; apply IH; try assumption; try lia; reflexivity.
    - destruct W as (-> & Wf & Wm). chained.
      + destruct module as [m'|]; [|exact I]. chained.
        * apply chain_atm; [exact Wm|reflexivity].
        * rewrite text_of_app, <- app_assoc. apply atm_head, Wf.
      + apply chain_atm; [exact Wf|reflexivity].
      + rewrite text_of_num. destruct (decimal_head arity) as (c & w & D & G). rewrite D. apply chain_before.
        unfold longer, is_digit in *. lia.
      + exact S.
    - destruct W as (-> & Wl & _ & W). chained; [| |exact S].
      + apply chain_commas; [|reflexivity]. intros x I r' S'. apply in_map_iff in I.
        destruct I as (v & <- & I). rewrite forallb_forall in Wl. apply chain_var; [apply Wl, I|exact S'].
      + apply chain_lines; [|reflexivity]. apply each_chains; [apply SUB; lia|exact W].
    - destruct W as (-> & Wn & _ & W). chained; [apply IH; [lia|exact Wn|reflexivity]|rewrite text_of_app, <- app_assoc; apply soft_items; reflexivity| |exact S].
      apply chain_listed; [reflexivity|intro; chained|apply chain_nl| |reflexivity].
      intros x I r' S'. apply in_map_iff in I. destruct I as ([p [g body]] & <- & I).
      pose proof (in_each _ _ W _ I) as (Wp & Wg & _ & Wb).
      apply (in_sum (fun '(p, (g, b)) =>
          size p + match g with Some n => size n | None => 0 end + list_sum (map size b))) in I.
      chained.
      + apply IH; [lia|exact Wp|]. destruct g; reflexivity.
      + destruct g as [g|]; [|exact Logic.I]. chained. apply IH; [lia|exact Wg|reflexivity].
      + apply chain_lines; [|exact S']. apply each_chains; [apply SUB; lia|exact Wb]. }
  destruct tail; [|apply G, S].
  replace (layout true sv wrap i k n) with (sp ++ sy Bar ++ sp ++ layout false sv wrap i k n ++ sy RBracket)
    by (destruct n; try discriminate IL; reflexivity).
  chained. apply G. reflexivity.
Qed.
Lemma node_chains n : chains n.
Proof. apply (all_chains (S (size n))). lia. Qed.

(** ** Types *)
Definition type_chains (t : tree) : Prop := forall r, type_wf t -> soft r = true -> chain (type_layout t) r.
Lemma each_type_chains l : (forall t, In t l -> type_chains t) -> each type_wf l ->
  forall x, In x (map type_layout l) -> forall r, soft r = true -> chain x r.
Proof.
  intros C W x I r S. apply in_map_iff in I. destruct I as (n & <- & I).
  apply (C n I); [apply (in_each _ _ W), I|exact S].
Qed.
Theorem all_type_chains : forall m t, tree_size t < m -> type_chains t.
Proof.
  induction m as [|m IH]; intros t L; [lia|].
  assert (SUB : forall l, list_sum (map tree_size l) < m -> forall x, In x l -> type_chains x).
  { intros l S x I. apply IH. pose proof (in_sum tree_size l x I). lia. }
  intros r W S. destruct t; cbn [type_layout type_wf tree_size] in *.
  - apply chain_var; assumption.
  - apply chain_atm; assumption.
  - destruct W as [A W]. chained; [apply chain_atm; [exact A|reflexivity]|].
    apply chain_commas; [|reflexivity]. apply each_type_chains; [apply SUB; lia|exact W].
  - destruct W as (M & A & W). chained.
    + apply chain_atm; [exact M|reflexivity].
    + rewrite text_of_app, <- app_assoc. apply atm_head, A.
    + apply chain_atm; [exact A|reflexivity].
    + apply chain_commas; [|reflexivity]. apply each_type_chains; [apply SUB; lia|exact W].
  - chained. apply chain_commas; [|reflexivity]. apply each_type_chains; [apply SUB; lia|exact W].
  - destruct W as [Wl Wt]. chained.
    + apply chain_commas; [|reflexivity]. apply each_type_chains; [apply SUB; lia|exact Wl].
    + apply IH; [lia|exact Wt|reflexivity].
  - destruct W as [_ W]. apply chain_listed; [reflexivity|intro; chained|intro; exact I| |exact S].
    apply each_type_chains; [apply SUB; lia|exact W].
Qed.
Lemma tree_chains t : type_chains t.
Proof. apply (all_type_chains (S (tree_size t))). lia. Qed.

(** ** Forms *)
Lemma chain_dot r : dotted r = true -> chain dot r.
Proof. intro D. apply chain_one; [discriminate|]. cbn. unfold dotted in D. rewrite D. reflexivity. Qed.
Definition plain_word (w : text) : bool :=
  match w with [] => false | c :: _ => is_lower c end && forallb name_char w &&
  match word w with TAtom a => text_eqb a w | _ => false end.
Lemma chain_plain w r : plain_word w = true -> soft r = true -> chain [(Some (TAtom w), w)] r.
Proof.
  intros P S. unfold plain_word in P. apply andb_prop in P. destruct P as [P A].
  apply andb_prop in P. destruct P as [P B]. apply chain_word; try assumption.
  destruct (word w); try discriminate A. apply text_eqb_eq in A. subst. reflexivity.
Qed.
Lemma chain_attribute a l r : plain_word (str a) = true ->
  (forall t, soft t = true -> chain l t) -> dotted r = true -> chain (attribute a l) r.
Proof.
  intros P L D. unfold attribute, word_.
  apply chain_app.
  - pose proof P as Q. unfold plain_word in Q. rewrite text_of_app, text_of_one.
    destruct (str a) as [|c w]; [discriminate Q|]. cbn [app].
    apply andb_prop in Q. destruct Q as [Q _]. apply andb_prop in Q. destruct Q as [Q _].
    apply chain_before. unfold longer, is_lower in *. lia.
  - apply chain_app; [apply chain_plain; [exact P|reflexivity]|].
    chained; [apply L; reflexivity|apply chain_dot, D].
Qed.
Lemma chain_doc d r : soft r = true -> chain (lex_doc d) r.
Proof.
  intro S. destruct d; [apply chain_plain; [reflexivity|exact S]|].
  apply chain_one; [discriminate|apply lex_doc_string, S].
Qed.
Lemma chain_vars l r : forallb variable_name l = true -> soft r = true ->
  chain (items comma [] true (map var l)) r.
Proof.
  intros V S. apply chain_commas; [|exact S]. intros x I r' S'. apply in_map_iff in I.
  destruct I as (v & <- & I). rewrite forallb_forall in V. apply chain_var; [apply V, I|exact S'].
Qed.
Lemma chain_exported l r : forallb (fun p => atom_name (fst p)) l = true -> chain (lex_exported l) r.
Proof.
  intro W. unfold lex_exported. chained. apply chain_commas; [|reflexivity].
  intros x I r' S. apply in_map_iff in I. destruct I as ([f a] & <- & I).
  rewrite forallb_forall in W. apply W in I. cbn [fst] in I. chained.
  - apply chain_atm; [exact I|reflexivity].
  - rewrite text_of_num. destruct (decimal_head a) as (c & w & D & G). rewrite D. apply chain_before.
    unfold longer, is_digit in *. lia.
  - exact S.
Qed.
Lemma quoted_more q t : forall m s r, quoted q m t = Some (s, []) -> quoted q m (t ++ r) = Some (s, r).
Proof.
  induction t as [|c t IH]; intros m s r Q; [discriminate Q|]. cbn [quoted app] in *.
  assert (G : forall m' f, option_map (fun '(s, r) => (f s, r)) (quoted q m' t) = Some (s, []) ->
    option_map (fun '(s, r) => ((f s : text), r)) (quoted q m' (t ++ r)) = Some (s, r)).
  { intros m' f H. destruct (quoted q m' t) as [[s' r']|] eqn:E; [|discriminate H].
    cbn in H. injection H as <- ->. rewrite (IH _ _ r E). reflexivity. }
  destruct m.
  - destruct (c =? q)%N; [injection Q as <- ->; reflexivity|].
    destruct (c =? 92)%N; [apply IH, Q|apply (G Plain (cons c)), Q].
  - destruct (c =? 120)%N; [apply IH, Q|]. destruct ((c =? 94)%N || is_digit c); [discriminate Q|].
    apply (G Plain (cons (escape_char c))), Q.
  - destruct (c =? 123)%N; [apply IH, Q|discriminate Q].
  - destruct (c =? 125)%N.
    + destruct (seen && code_point n); [apply (G Plain (cons n)), Q|discriminate Q].
    + destruct (hex_digit c); [apply IH, Q|discriminate Q].
Qed.
Lemma chain_file written file r : quoted 34 Plain (written ++ [34%N]) = Some (file, []) ->
  chain [(Some (TString file), [34%N] ++ written ++ [34%N])] (44%N :: r).
Proof.
  intro Q. apply chain_one; [discriminate|].
  pose proof (quoted_more _ _ _ _ (44%N :: r) Q) as M. rewrite <- !app_assoc in *. cbn [app] in *.
  assert (T : triple (written ++ 34%N :: 44%N :: r) = false).
  { unfold triple. destruct written as [|c w]; [reflexivity|]. cbn [app starts_with].
    destruct (34 =? c)%N eqn:E; [|reflexivity]. exfalso. cbn [app quoted] in Q.
    rewrite N.eqb_sym, E in Q. injection Q as _ Q. destruct w; discriminate Q. }
  cbn -[quoted triple]. rewrite T, M. reflexivity.
Qed.
Lemma chain_minus_word a r : plain_word (str a) = true -> chain (sy Minus ++ word_ a ++ sp) r.
Proof.
  intro P. apply chain_app.
  - pose proof P as Q. unfold plain_word in Q. unfold word_. rewrite text_of_app, text_of_one.
    destruct (str a) as [|c w]; [discriminate Q|]. cbn [app].
    apply andb_prop in Q. destruct Q as [Q _]. apply andb_prop in Q. destruct Q as [Q _].
    apply chain_before. unfold longer, is_lower in *. lia.
  - apply chain_app; [apply chain_plain; [exact P|reflexivity]|apply chain_sp].
Qed.

Theorem top_chain f r : top_wf f -> ends_line f = true \/ dotted r = true -> chain (top_layout f) r.
Proof.
  intros W E. destruct f; cbn [ends_line top_wf top_layout] in *.
  - destruct exported as [|p l]; [exact I|]. apply chain_app; [|apply chain_nl].
    apply chain_attribute; [reflexivity|intros; apply chain_exported, W|reflexivity].
  - destruct exported as [|p l]; [exact I|]. apply chain_app; [|apply chain_nl].
    apply chain_attribute; [reflexivity|intros; apply chain_exported, W|reflexivity].
  - destruct E as [E|E]; [discriminate E|]. apply chain_app; [apply chain_nl|].
    apply chain_attribute; [reflexivity|apply chain_doc|exact E].
  - apply chain_app; [|apply chain_nl].
    apply chain_attribute; [reflexivity|apply chain_doc|reflexivity].
  - apply chain_app; [|apply chain_nl]. apply chain_attribute; [reflexivity| |reflexivity].
    intros t T. chained. apply chain_commas; [|reflexivity].
    intros x I r' S. apply in_map_iff in I. destruct I as (a & <- & I).
    apply (in_each _ _ W) in I. unfold plain_atom in I. destruct a as [|c a]; [contradiction|].
    destruct I as (A & B & C). apply chain_word; assumption.
  - destruct E as [E|E]; [discriminate E|]. apply chain_app; [apply chain_nl|].
    apply chain_attribute; [reflexivity| |exact E]. intros t T.
    apply chain_app; [apply chain_file, W|]. chained. exact T.
  - destruct E as [E|E]; [discriminate E|]. destruct W as [A W].
    apply chain_attribute; [reflexivity| |exact E]. intros t T. chained.
    + apply chain_atm; [exact A|reflexivity].
    + apply chain_lines; [|reflexivity]. intros x I r' S. apply in_map_iff in I.
      destruct I as ([g t'] & <- & I). apply (in_each _ _ W) in I. destruct I as [G W'].
      chained; [apply chain_atm; [exact G|reflexivity]|apply tree_chains; assumption].
  - destruct E as [E|E]; [discriminate E|]. destruct W as (A & Wl & Wt).
    apply chain_app; [apply chain_nl|].
    match goal with |- chain (?a ++ ?b ++ ?c ++ ?d) _ =>
      replace (a ++ b ++ c ++ d) with ((a ++ b ++ c) ++ d) by (rewrite <- !app_assoc; reflexivity) end.
    apply chain_app; [apply chain_minus_word; reflexivity|].
    chained.
    + apply chain_atm; [exact A|reflexivity].
    + apply chain_commas; [|reflexivity]. apply each_type_chains; [intros; apply tree_chains|exact Wl].
    + apply tree_chains; [exact Wt|]. cbn. rewrite E. reflexivity.
    + apply chain_dot, E.
  - destruct W as (A & Wl & Wt).
    apply chain_app; [apply chain_nl|].
    match goal with |- chain (?a ++ ?b ++ ?c ++ ?d) _ =>
      replace (a ++ b ++ c ++ d) with ((a ++ b ++ c) ++ d) by (rewrite <- !app_assoc; reflexivity) end.
    apply chain_app; [destruct opaque; apply chain_minus_word; reflexivity|].
    chained.
    + apply chain_atm; [exact A|reflexivity].
    + apply chain_vars; [exact Wl|reflexivity].
    + apply tree_chains; [exact Wt|reflexivity].
    + apply chain_dot. reflexivity.
  - destruct W as (A & Wl & _ & W). apply chain_app; [apply chain_nl|]. chained.
    + apply chain_atm; [exact A|reflexivity].
    + apply chain_vars; [exact Wl|reflexivity].
    + apply chain_lines; [|reflexivity]. apply each_chains; [intros; apply node_chains|exact W].
    + apply chain_dot. reflexivity.
Qed.

Lemma unwritten f : written f = false -> top_layout f = [].
Proof. destruct f; try discriminate; destruct exported; try discriminate; reflexivity. Qed.
Lemma layout_filter l : flat_map top_layout l = flat_map top_layout (filter written l).
Proof.
  induction l as [|f l IH]; [reflexivity|]. cbn [filter flat_map].
  destruct (written f) eqn:W; [cbn [flat_map]; rewrite IH; reflexivity|].
  rewrite (unwritten f W). exact IH.
Qed.
Lemma written_chain l : each top_wf l -> lines l -> chain (flat_map top_layout l) (text_of (nl 0)).
Proof.
  induction l as [|f l IH]; intros W L; [exact I|]. cbn [flat_map]. destruct W as [Wf W].
  apply chain_app.
  - apply top_chain; [exact Wf|]. destruct l as [|g l]; [right; reflexivity|].
    destruct L as [[L|L] _]; [left; exact L|right].
    destruct g; try discriminate L; reflexivity.
  - apply IH; [exact W|]. destruct l as [|g l]; [exact I|apply L].
Qed.
Lemma each_filter {A} (P : A -> Prop) f l : each P l -> each P (filter f l).
Proof.
  induction l as [|a l IH]; [intro; exact I|]. intros [H E]. cbn [filter].
  destruct (f a); [split; [exact H|]|]; apply IH, E.
Qed.
Theorem module_chain name l : match name with Some a => atom_name a = true | None => True end ->
  module_wf l -> chain (header name ++ flat_map top_layout l ++ nl 0) [].
Proof.
  intros N [W L]. rewrite layout_filter. apply chain_app; [|apply chain_app].
  - destruct name as [a|]; [|exact I]. apply chain_app; [|apply chain_nl].
    apply chain_attribute; [reflexivity| |reflexivity]. intros t T. apply chain_atm; assumption.
  - rewrite app_nil_r. apply written_chain; [apply each_filter, W|exact L].
  - apply chain_nl.
Qed.
Theorem module_scan name l : match name with Some a => atom_name a = true | None => True end ->
  module_wf l ->
  scan (text_of (header name ++ flat_map top_layout l ++ nl 0)) =
  Some (tokens (header name ++ flat_map top_layout l)).
Proof.
  intros N W. rewrite scan_text by (apply module_chain; assumption).
  rewrite app_assoc, tokens_app. cbn. rewrite app_nil_r. reflexivity.
Qed.
