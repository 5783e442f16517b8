(** Adding a name to an import: the proof. *)
From Coq Require Import String Arith NArith List Bool Lia.
From Verif Require Import Text TextProofs ImportEdit ImportEditSpec ImportEditProofs.
Import ListNotations.
Local Open Scope list_scope.
Local Open Scope nat_scope.

Lemma comment_insert p x new v : x <> 47%N -> hd_error v <> Some 47%N -> has_comment (p ++ x :: v) = false -> has_comment new = false ->
  has_comment ((p ++ [x]) ++ new ++ v) = false.
Proof.
  intros X V H N. rewrite <- app_assoc. cbn [app]. rewrite has_comment_app in H |- * by (apply starts_at, X).
  apply orb_false_iff in H as (-> & H). cbn [has_comment orb] in H |- *. replace (x =? 47)%N with false in * by (symmetry; apply N.eqb_neq, X).
  cbn [andb orb] in H |- *. rewrite has_comment_app by exact V. rewrite N, H. reflexivity.
Qed.
Lemma segments_last m : m <> [] -> exists T u, segments m = T ++ [Word u].
Proof.
  induction m as [|s m IH]; intro N; [congruence|]. destruct m as [|t m]; [exists [], s; reflexivity|].
  destruct IH as (T & u & E); [discriminate|]. exists (Word s :: Sign 47 :: T), u.
  change (segments (s :: t :: m)) with (Word s :: Sign 47 :: segments (t :: m)). rewrite E. reflexivity.
Qed.
(** The last token tells the last character. *)
Lemma last_is_word a x T u : is_whitespace x = false -> words_from [] (a ++ [x]) = T ++ [Word u] -> word_char x = true.
Proof.
  intros X E. destruct (word_char x) eqn:W; [reflexivity|]. exfalso. rewrite words_app in E by exact W. cbn in E. rewrite W, (not_space x X) in E. cbn in E.
  apply app_inj_tail in E as (_ & E). discriminate E.
Qed.
Lemma last_is_sign a x T c : is_whitespace x = false -> words_from [] (a ++ [x]) = T ++ [Sign c] -> x = c /\ words_from [] a = T.
Proof.
  intros X E. destruct (word_char x) eqn:W.
  - exfalso. destruct (last_word a x W []) as (T' & u & E'). rewrite E' in E. apply app_inj_tail in E as (_ & E). discriminate E.
  - rewrite words_app in E by exact W. cbn in E. rewrite W, (not_space x X) in E. cbn in E. apply app_inj_tail in E as (-> & E). split; [congruence|reflexivity].
Qed.
Lemma word_char_not x c : word_char x = true -> word_char c = false -> x <> c.
Proof. intros A B ->. congruence. Qed.

Definition result (start : nat) (r : option (nat * text)) (s : text) (i : an_import) (item : list text) : Prop :=
  exists u v new i', s = u ++ v /\ r = Some (start + length u, new) /\ has_comment (u ++ new ++ v) = false
    /\ words_from [] (u ++ new ++ v) = written i' /\ grammatical i' /\ adds i i' item.

Lemma braced start s l comma i name item : grammatical i -> items i = Some (l, comma) -> words_from [] s = written i -> has_comment s = false ->
  an_item name item -> existsb (N.eqb 125) s = true /\ result start (insert_into_braced_import name start s) s i item.
Proof.
  intros G I R H A. pose proof (all_space s i) as Sp. unfold tokens in Sp. rewrite no_comment in Sp by exact H. specialize (Sp R H).
  destruct G as (G1 & G2 & G3 & G4). rewrite I in G4. destruct G4 as (G4 & G5).
  set (P := Word (str "import") :: segments (module i) ++ [Sign 46]).
  set (C := match alias i with Some a => [Word keyword_as; Word a] | None => [] end).
  assert (written i = (P ++ [Sign 123] ++ listed l ++ if comma then [Sign 44] else []) ++ Sign 125 :: C) as Wr.
  { unfold written, P, braces. rewrite I. cbn. rewrite <- ?app_assoc. cbn. rewrite <- ?app_assoc. reflexivity. }
  assert (forall l', written (AnImport (module i) (Some (l', false)) (alias i)) = P ++ Sign 123 :: listed l' ++ Sign 125 :: C) as Wr'.
  { intro l'. unfold written, P, braces. cbn. rewrite <- ?app_assoc. cbn. rewrite <- ?app_assoc. reflexivity. }
  assert (grammatical (AnImport (module i) (Some (l ++ [item], false)) (alias i))) as G'.
  { split; [exact G1|]. split; [exact G2|]. split; [exact G3|]. cbn. split; [|reflexivity]. apply Forall_app. split; [exact G4|].
    constructor; [apply A|constructor]. }
  assert (adds i (AnImport (module i) (Some (l ++ [item], false)) (alias i)) item) as Ad.
  { split; [reflexivity|]. split; [reflexivity|]. unfold item_list. rewrite I. reflexivity. }
  rewrite Wr in R. destruct (words_split _ _ _ _ _ R) as (a & c & -> & Ra & Rc).
  assert (~ In 125%N c) as N.
  { intro J. pose proof (sign_in c 125%N eq_refl eq_refl [] J) as K. rewrite Rc in K. unfold C in K. destruct (alias i); [|destruct K].
    destruct K as [K|[K|[]]]; discriminate K. }
  split; [rewrite existsb_app; cbn; apply orb_true_r|].
  apply Forall_app in Sp as (Sp & _). destruct (ends a Sp (str "import")) as (a' & x & ws & -> & X & W & S & E).
  { rewrite Ra. left. reflexivity. }
  rewrite Ra in E. rewrite <- app_assoc in H. cbn [app] in H.
  assert (hd_error (ws ++ 125%N :: c) <> Some 47%N) as Hd by (apply hd_spaces; [exact S|discriminate]).
  assert (rfind (N.eqb 125) ((a' ++ x :: ws) ++ 125%N :: c) = Some (length a' + 1 + length ws)) as F.
  { rewrite rfind_last; [rewrite app_length; cbn; f_equal; lia|reflexivity|]. apply Forall_forall. intros d D. apply N.eqb_neq. congruence. }
  unfold result, insert_into_braced_import, find_last_char_before_closing_brace. rewrite F. rewrite <- app_assoc. cbn [app].
  rewrite (last_char start x ws a' X W).
  destruct l as [|i1 l].
  - rewrite (G5 eq_refl) in E. cbn [listed app] in E.
    destruct (last_is_sign _ _ _ _ X E) as (-> & Ra'). cbn iota beta delta [N.eqb Pos.eqb].
    assert (find_char 123 (a' ++ 123%N :: ws ++ 125%N :: c) = Some (length a')) as ->.
    { apply find_char_first. intro J. pose proof (sign_in a' 123%N eq_refl eq_refl [] J) as K. rewrite Ra' in K. unfold P in K.
      destruct K as [K|K]; [discriminate K|]. apply in_app_iff in K as [K|[K|[]]]; [apply segments_signs in K|]; discriminate K. }
    exists (a' ++ [123%N]), (ws ++ 125%N :: c), name, (AnImport (module i) (Some ([] ++ [item], false)) (alias i)).
    split; [rewrite <- app_assoc; reflexivity|]. split; [rewrite app_length; cbn [length]; f_equal; f_equal; lia|].
    split; [apply comment_insert; [discriminate|exact Hd|exact H|apply A]|]. split; [|split; assumption].
    rewrite Wr'. rewrite <- app_assoc. cbn [app]. rewrite words_app by reflexivity. rewrite Ra'. f_equal.
    change (Sign 123 :: words_from [] (name ++ ws ++ 125%N :: c) = Sign 123 :: map Word item ++ Sign 125 :: C).
    rewrite (item_then name item ws 125 c A S eq_refl eq_refl), Rc. reflexivity.
  - assert (P ++ Sign 123 :: listed (i1 :: l) ++ Sign 44 :: map Word item ++ Sign 125 :: C
            = written (AnImport (module i) (Some ((i1 :: l) ++ [item], false)) (alias i))) as Fin.
    { rewrite Wr', listed_snoc by discriminate. rewrite <- app_assoc. reflexivity. }
    destruct comma.
    + replace (P ++ [Sign 123] ++ listed (i1 :: l) ++ [Sign 44]) with ((P ++ [Sign 123] ++ listed (i1 :: l)) ++ [Sign 44]) in E
        by (rewrite <- ?app_assoc; reflexivity).
      destruct (last_is_sign _ _ _ _ X E) as (-> & Ra'). cbn iota beta delta [N.eqb Pos.eqb].
      exists (a' ++ [44%N]), (ws ++ 125%N :: c), (str " " ++ name), (AnImport (module i) (Some ((i1 :: l) ++ [item], false)) (alias i)).
      split; [rewrite <- app_assoc; reflexivity|]. split; [rewrite app_length; cbn [length]; f_equal; f_equal; lia|].
      split; [apply comment_insert; [discriminate|exact Hd|exact H|apply A]|]. split; [|split; assumption].
      rewrite <- Fin. rewrite <- ?app_assoc. cbn [app]. rewrite words_app by reflexivity. rewrite Ra'.
      change (words_from [] (44%N :: str " " ++ name ++ ws ++ 125%N :: c)) with (Sign 44 :: words_from [] (name ++ ws ++ 125%N :: c)).
      rewrite (item_then name item ws 125 c A S eq_refl eq_refl), Rc. rewrite <- ?app_assoc. reflexivity.
    + rewrite app_nil_r in E. destruct (listed_last (i1 :: l)) as (T & u & L); [discriminate|exact G4|].
      assert (word_char x = true) as Wx.
      { apply (last_is_word a' x (P ++ Sign 123 :: T) u X). rewrite E, L, <- app_assoc. reflexivity. }
      assert ((x =? 123)%N = false) as -> by (apply N.eqb_neq, word_char_not; [exact Wx|reflexivity]).
      assert ((x =? 44)%N = false) as -> by (apply N.eqb_neq, word_char_not; [exact Wx|reflexivity]).
      exists (a' ++ [x]), (ws ++ 125%N :: c), (str ", " ++ name), (AnImport (module i) (Some ((i1 :: l) ++ [item], false)) (alias i)).
      split; [rewrite <- app_assoc; reflexivity|]. split; [rewrite app_length; cbn [length]; f_equal; f_equal; lia|].
      split; [apply comment_insert; [apply word_char_not; [exact Wx|reflexivity]|exact Hd|exact H|apply A]|]. split; [|split; assumption].
      rewrite <- Fin.
      change ((a' ++ [x]) ++ (str ", " ++ name) ++ ws ++ 125%N :: c) with ((a' ++ [x]) ++ 44%N :: 32%N :: name ++ ws ++ 125%N :: c).
      rewrite words_app by reflexivity. rewrite E.
      change (words_from [] (44%N :: 32%N :: name ++ ws ++ 125%N :: c)) with (Sign 44 :: words_from [] (name ++ ws ++ 125%N :: c)).
      rewrite (item_then name item ws 125 c A S eq_refl eq_refl), Rc. rewrite <- ?app_assoc. reflexivity.
Qed.

Lemma unbraced start s i name item : grammatical i -> items i = None -> words_from [] s = written i -> has_comment s = false ->
  (alias i <> None -> has s (str " as ")) -> an_item name item ->
  existsb (N.eqb 125) s = false
  /\ result start (insert_into_unbraced_import name (match alias i with Some _ => true | None => false end) start (start + length s) s) s i item.
Proof.
  intros G I R H As A. pose proof (all_space s i) as Sp. unfold tokens in Sp. rewrite no_comment in Sp by exact H. specialize (Sp R H).
  destruct G as (G1 & G2 & G3 & _).
  set (P := Word (str "import") :: segments (module i)).
  set (C := match alias i with Some a => [Word keyword_as; Word a] | None => [] end).
  assert (written i = P ++ C) as Wr by (unfold written; rewrite I; reflexivity).
  set (i' := AnImport (module i) (Some ([item], false)) (alias i)).
  assert (written i' = P ++ [Sign 46; Sign 123] ++ map Word item ++ Sign 125 :: C) as Wr'.
  { unfold written, i', braces, P. cbn. rewrite <- ?app_assoc. reflexivity. }
  assert (grammatical i') as G'.
  { split; [exact G1|]. split; [exact G2|]. split; [exact G3|]. cbn. split; [|reflexivity]. constructor; [apply A|constructor]. }
  assert (adds i i' item) as Ad.
  { split; [reflexivity|]. split; [reflexivity|]. unfold item_list. rewrite I. reflexivity. }
  split.
  { destruct (existsb (N.eqb 125) s) eqn:E; [|reflexivity]. exfalso. apply existsb_exists in E as (c & J & E). apply N.eqb_eq in E as <-.
    pose proof (sign_in s 125%N eq_refl eq_refl [] J) as K. rewrite R, Wr in K. apply in_app_iff in K as [K|K].
    - destruct K as [K|K]; [discriminate K|]. apply segments_signs in K. discriminate K.
    - unfold C in K. destruct (alias i); [|destruct K]. destruct K as [K|[K|[]]]; discriminate K. }
  assert (forall v, hd_error v <> Some 47%N -> has_comment v = false -> has_comment ((str ".{" ++ name ++ str "}") ++ v) = false) as Hn.
  { intros v Hd Hv. rewrite has_comment_app by exact Hd. rewrite Hv, orb_false_r. change (has_comment (name ++ str "}") = false).
    rewrite has_comment_app by discriminate. destruct A as (_ & -> & _). reflexivity. }
  unfold result, insert_into_unbraced_import. destruct (alias i) as [al|] eqn:Al; cbn [negb].
  - destruct (find_text_found _ _ (As ltac:(discriminate))) as (a & b & -> & F). rewrite F.
    rewrite firstn_app, Nat.sub_diag, firstn_all. cbn [firstn]. rewrite app_nil_r.
    assert (words_from [] (a ++ str " as " ++ b) = words_from [] a ++ Word keyword_as :: words_from [] b) as Ra.
    { change (a ++ str " as " ++ b) with (a ++ 32%N :: str "as" ++ 32%N :: b). rewrite words_app by reflexivity. f_equal. }
    rewrite Ra, Wr in R. unfold C in R.
    assert (words_from [] a = P /\ words_from [] b = [Word al]) as (Pa & Pb).
    { revert R. unfold C. generalize (words_from [] a) (words_from [] b). assert (~ In (Word keyword_as) P) as NP.
      { intros [K|K]; [discriminate K|]. apply segments_words in K. exact (G2 K). }
      revert G3 NP. generalize keyword_as as k. generalize P. clear. intros P k G3 NP l. revert P NP. induction l as [|t l IH]; intros P NP r E.
      - destruct P as [|p P]; [cbn in E; injection E as ->; split; reflexivity|]. exfalso. cbn in E. apply NP. left. congruence.
      - destruct P as [|p P].
        + exfalso. cbn in E. assert (l ++ Word k :: r = [Word al]) as E' by congruence. destruct l as [|y [|z l]]; try discriminate E'.
          cbn in E'. apply G3. congruence.
        + cbn in E. assert (t = p) as -> by congruence. assert (l ++ Word k :: r = P ++ [Word k; Word al]) as E' by congruence.
          destruct (IH P (fun K => NP (or_intror K)) r E') as (-> & ->). split; reflexivity. }
    apply Forall_app in Sp as (Sp & _). destruct (ends a Sp (str "import")) as (a' & x & ws & -> & X & W & S & E).
    { rewrite Pa. left. reflexivity. }
    rewrite Pa in E. destruct (segments_last (module i) G1) as (T & u & L).
    assert (word_char x = true) as Wx by (apply (last_is_word a' x (Word (str "import") :: T) u X); rewrite E; unfold P; rewrite L; reflexivity).
    rewrite rfind_last; [|rewrite X; reflexivity|eapply Forall_impl; [|exact W]; intros ? ->; reflexivity].
    rewrite <- app_assoc in H. cbn [app] in H.
    assert (hd_error (ws ++ str " as " ++ b) <> Some 47%N) as Hd by (apply (hd_spaces ws 32%N); [exact S|discriminate]).
    exists (a' ++ [x]), (ws ++ str " as " ++ b), (str ".{" ++ name ++ str "}"), i'.
    split; [rewrite <- ?app_assoc; reflexivity|]. split; [rewrite app_length; cbn [length]; f_equal; f_equal; lia|].
    split; [apply comment_insert; [apply word_char_not; [exact Wx|reflexivity]|exact Hd|exact H|]|].
    { specialize (Hn [] ltac:(discriminate) eq_refl). rewrite app_nil_r in Hn. exact Hn. }
    split; [|split; assumption].
    replace ((a' ++ [x]) ++ (str ".{" ++ name ++ str "}") ++ ws ++ str " as " ++ b)
      with ((a' ++ [x]) ++ 46%N :: 123%N :: name ++ [] ++ 125%N :: ws ++ str " as " ++ b) by (rewrite <- ?app_assoc; reflexivity).
    rewrite words_app by reflexivity. rewrite E.
    change (words_from [] (46%N :: 123%N :: name ++ [] ++ 125%N :: ws ++ str " as " ++ b))
      with ([Sign 46; Sign 123] ++ words_from [] (name ++ [] ++ 125%N :: ws ++ str " as " ++ b)).
    rewrite (item_then name item [] 125 _ A (Forall_nil _) eq_refl eq_refl), Wr'. unfold C. do 4 f_equal. f_equal.
    change (ws ++ str " as " ++ b) with (ws ++ 32%N :: str "as" ++ 32%N :: b). rewrite words_app by reflexivity. rewrite (only_spaces ws S).
    change (words_from [] (32%N :: str "as" ++ 32%N :: b)) with (Word keyword_as :: words_from [] b). rewrite Pb. reflexivity.
  - exists s, [], (str ".{" ++ name ++ str "}"), i'. rewrite !app_nil_r. split; [reflexivity|]. split; [reflexivity|].
    split.
    { rewrite has_comment_app by discriminate. rewrite H. specialize (Hn [] ltac:(discriminate) eq_refl). rewrite app_nil_r in Hn. exact Hn. }
    split; [|split; assumption].
    change (s ++ str ".{" ++ name ++ str "}") with (s ++ 46%N :: 123%N :: name ++ [] ++ 125%N :: []). rewrite words_app by reflexivity. rewrite R, Wr. unfold C.
    rewrite app_nil_r.
    change (words_from [] (46%N :: 123%N :: name ++ [] ++ [125%N])) with ([Sign 46; Sign 123] ++ words_from [] (name ++ [] ++ [125%N])).
    rewrite (item_then name item [] 125 [] A (Forall_nil _) eq_refl eq_refl), Wr'. unfold C. reflexivity.
Qed.
