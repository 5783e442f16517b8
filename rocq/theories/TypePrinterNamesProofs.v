(** Names of type variables; what is printed. *)
From Coq Require Import String NArith List Bool Arith Lia FinFun.
From Verif Require Import Text TextProofs Lexer LexerSpec LexerProofs LexerWhole TypePrinter TypePrinterSpec TypePrinterLex
  TypePrinterScopeProofs TypePrinterReadProofs.
Require Import ZifyBool ZifyNat ZifyN.
Import ListNotations.
Local Open Scope list_scope.
Local Open Scope N_scope.

(** ** Letters *)
Fixpoint value (l : text) : N := match l with [] => 0 | c :: l => (c - 96) + 26 * value l end.
Lemma letters_value fuel : forall n, n < 2 ^ N.of_nat fuel ->
  value (letters (S fuel) n) = n + 1 /\ Forall a_lower (letters (S fuel) n).
Proof.
  induction fuel as [|f IH]; intros n H.
  - cbn in H. assert (n = 0) as -> by lia. cbn. split; [reflexivity|]. repeat constructor; texts; lia.
  - remember (S f) as f1 eqn:Ef. cbn [letters].
    pose proof (N.div_mod n 26 ltac:(lia)) as D. pose proof (N.mod_lt n 26 ltac:(lia)) as L.
    destruct (n / 26 =? 0) eqn:Z.
    + cbn. split; [lia|]. repeat constructor; texts; lia.
    + subst f1. destruct (IH (n / 26 - 1)) as [V F].
      { rewrite Nat2N.inj_succ, N.pow_succ_r' in H. lia. }
      split; [|constructor; [texts; lia|exact F]]. change (value (n mod 26 + 97 :: letters (S f) (n / 26 - 1)) = n + 1).
      cbn [value]. rewrite V. lia.
Qed.
Lemma size_bound n : n < 2 ^ N.of_nat (N.size_nat n).
Proof.
  destruct n as [|p]; [cbn; lia|]. cbn [N.size_nat]. induction p as [p IH|p IH|]; cbn [Pos.size_nat];
    rewrite ?Nat2N.inj_succ, ?N.pow_succ_r'; [| |cbn; lia]; lia.
Qed.
Lemma letter_value n : value (rev (letter n)) = n + 1 /\ lowercase (letter n).
Proof.
  unfold letter. rewrite rev_involutive. destruct (letters_value (N.size_nat n) n (size_bound n)) as [V F].
  split; [auto|]. split; [|now apply Forall_rev]. intros E. apply (f_equal (@rev N)) in E. rewrite rev_involutive in E.
  rewrite E in V. cbn in V. lia.
Qed.
Lemma value_injective l : forall l', Forall a_lower l -> Forall a_lower l' -> value l = value l' -> l = l'.
Proof.
  induction l as [|c l IH]; intros [|c' l'] F F' E; [reflexivity| | |].
  - inversion F'; subst. cbn in E. texts. lia.
  - inversion F; subst. cbn in E. texts. lia.
  - inversion F; subst. inversion F'; subst. cbn [value] in E. texts. assert (c = c' /\ value l = value l') as [-> E'] by lia.
    f_equal. auto.
Qed.
Lemma letter_injective n n' : letter n = letter n' -> n = n'.
Proof. intros E. destruct (letter_value n) as [V _], (letter_value n') as [V' _]. rewrite E in V. lia. Qed.
Lemma letter_surjective w : lowercase w -> exists n, w = letter n /\ n + 1 = value (rev w).
Proof.
  intros [N F]. exists (value (rev w) - 1).
  assert (P : 1 <= value (rev w)).
  { destruct (rev w) as [|c l] eqn:E; [apply (f_equal (@rev _)) in E; rewrite rev_involutive in E; contradiction|].
    assert (F' : Forall a_lower (c :: l)) by (rewrite <- E; now apply Forall_rev). inversion F'; subst. cbn [value]. texts. lia. }
  split; [|lia]. destruct (letter_value (value (rev w) - 1)) as [V [_ F']].
  rewrite <- (rev_involutive w) at 1. rewrite <- (rev_involutive (letter _)). f_equal. apply value_injective.
  - now apply Forall_rev.
  - now apply Forall_rev.
  - rewrite V. lia.
Qed.
Fixpoint bound (n : nat) : N := match n with O => 0 | S n => 26 * bound n + 1 end.
Lemma value_bound l : Forall a_lower l -> bound (length l) <= value l /\ value l < bound (S (length l)).
Proof.
  induction 1 as [|c l H _ IH]; [cbn; lia|]. cbn [length value]. change (bound (S (S (length l)))) with (26 * bound (S (length l)) + 1).
  cbn [bound] in *. texts. lia.
Qed.
Lemma bound_step n : bound (S n) = bound n + 26 ^ N.of_nat n.
Proof.
  induction n as [|n IH]; [reflexivity|]. rewrite Nat2N.inj_succ, N.pow_succ_r'. cbn [bound] in *. lia.
Qed.
Lemma bound_monotone n m : (n <= m)%nat -> bound n <= bound m.
Proof. induction 1 as [|m _ IH]; [lia|]. cbn [bound]. lia. Qed.
Lemma value_app l l' : value (l ++ l') = value l + 26 ^ N.of_nat (length l) * value l'.
Proof.
  induction l as [|c l IH]; cbn [value app length].
  - change (26 ^ N.of_nat 0) with 1. lia.
  - rewrite IH, Nat2N.inj_succ, N.pow_succ_r'. lia.
Qed.
Lemma precedes_value x y : Forall a_lower x -> Forall a_lower y -> precedes x y -> value (rev x) < value (rev y).
Proof.
  intros Fx Fy [L|[L [c [a [b [r [r' [-> [-> Lt]]]]]]]]].
  - pose proof (value_bound (rev x) (Forall_rev Fx)) as [_ B]. pose proof (value_bound (rev y) (Forall_rev Fy)) as [B' _].
    rewrite rev_length in *. pose proof (bound_monotone (S (length x)) (length y) ltac:(lia)). lia.
  - rewrite !rev_app_distr. cbn [rev]. rewrite <- !app_assoc, !value_app. cbn [app value]. rewrite !rev_length.
    rewrite !app_length in L. cbn [length] in L. assert (E : length r' = length r) by lia. rewrite E.
    apply Forall_app in Fx as [Fc Fx]. apply Forall_app in Fy as [_ Fy]. inversion Fx; subst. inversion Fy; subst.
    pose proof (value_bound (rev r) (Forall_rev H2)) as [_ B]. pose proof (value_bound (rev r') (Forall_rev H4)) as [B' _].
    rewrite rev_length in *. rewrite bound_step in B. rewrite E in B'.
    set (P := 26 ^ N.of_nat (length r)) in *. set (V := value (rev c)). texts.
    change (26 ^ N.of_nat (length [a])) with 26. change (26 ^ N.of_nat (length [b])) with 26.
    assert (P * (a - 96 + 26 * 0 + 26 * V) + P <= P * (b - 96 + 26 * 0 + 26 * V)) by nia. lia.
Qed.

(** ** The printer *)
Definition taken (p : printer) : list text := printed_type_variable_names p.
Lemma fresh_letter p : exists k, k < N.of_nat (S (length (taken p))) /\ ~ In (letter (uid p + k)) (taken p).
Proof.
  destruct (Forall_Exists_dec (fun k => In (letter (uid p + N.of_nat k)) (taken p))
    (fun k => in_dec (list_eq_dec N.eq_dec) _ _) (seq 0 (S (length (taken p))))) as [F|E].
  - exfalso.
    assert (N : NoDup (map (fun k => letter (uid p + N.of_nat k)) (seq 0 (S (length (taken p)))))).
    { apply Injective_map_NoDup; [|apply seq_NoDup]. intros a b E. apply letter_injective in E. lia. }
    pose proof (NoDup_incl_length (l' := taken p) N) as L. rewrite map_length, seq_length in L.
    assert (incl (map (fun k => letter (uid p + N.of_nat k)) (seq 0 (S (length (taken p))))) (taken p)).
    { intros x I. apply in_map_iff in I as [k [<- I]]. rewrite Forall_forall in F. auto. }
    specialize (L H). lia.
  - apply Exists_exists in E as [k [I H]]. apply in_seq in I. exists (N.of_nat k). split; [lia|auto].
Qed.
Lemma existsb_in x l : existsb (text_eqb x) l = true <-> In x l.
Proof.
  rewrite existsb_exists. split.
  - intros [y [I E]]. apply text_eqb_eq in E. now subst.
  - intros I. exists x. split; [auto|apply text_eqb_refl].
Qed.
Lemma new_variable_spec id fuel : forall p,
  (exists k, k < N.of_nat fuel /\ ~ In (letter (uid p + k)) (taken p)) ->
  exists k, new_variable fuel id p
      = (letter (uid p + k),
         Printer (p_names p) (uid p + k + 1) (put N.eqb id (letter (uid p + k)) (printed_type_variables p))
           (letter (uid p + k) :: taken p))
    /\ ~ In (letter (uid p + k)) (taken p)
    /\ forall j, j < k -> In (letter (uid p + j)) (taken p).
Proof.
  induction fuel as [|fuel IH]; intros p [k [K N]]; [lia|]. cbn [new_variable next_letter].
  cbn [p_names uid printed_type_variables printed_type_variable_names].
  destruct (existsb (text_eqb (letter (uid p))) (printed_type_variable_names p)) eqn:E.
  - apply existsb_in in E.
    destruct (IH (Printer (p_names p) (uid p + 1) (printed_type_variables p) (printed_type_variable_names p))) as [k' [R [N' J]]].
    + cbn [uid taken printed_type_variable_names]. destruct (N.eq_dec k 0) as [->|Nz].
      * rewrite N.add_0_r in N. contradiction.
      * exists (k - 1). split; [lia|]. replace (uid p + 1 + (k - 1)) with (uid p + k) by lia. exact N.
    + cbn [uid taken printed_type_variable_names p_names printed_type_variables] in *. exists (k' + 1).
      replace (uid p + (k' + 1)) with (uid p + 1 + k') by lia. split; [exact R|]. split; [auto|].
      intros j Hj. destruct (N.eq_dec j 0) as [->|Nz]; [rewrite N.add_0_r; auto|].
      replace (uid p + j) with (uid p + 1 + (j - 1)) by lia. apply J. lia.
  - exists 0. rewrite N.add_0_r. split; [reflexivity|]. split; [|lia].
    intros I. apply existsb_in in I. unfold taken in I. congruence.
Qed.

Definition name_of (p : printer) (i : N) : option text :=
  match get N.eqb i (type_variables (p_names p)) with
  | Some x => Some x
  | None => get N.eqb i (printed_type_variables p)
  end.
Record good (scope : text -> Prop) (ns : names) (p : printer) : Prop := {
  g_names : p_names p = ns;
  g_scope : forall x, scope x -> In x (taken p);
  g_printed : forall i x, get N.eqb i (printed_type_variables p) = Some x ->
    (exists k, k < uid p /\ x = letter k) /\ lowercase x /\ ~ scope x;
  g_one : forall i j x, get N.eqb i (printed_type_variables p) = Some x ->
    get N.eqb j (printed_type_variables p) = Some x -> i = j
}.
Definition dense (p : printer) : Prop := forall j, j < uid p -> In (letter j) (taken p).
Record later (p p' : printer) : Prop := {
  l_names : p_names p' = p_names p;
  l_name_of : forall i x, name_of p i = Some x -> name_of p' i = Some x;
  l_taken : incl (taken p) (taken p');
  l_dense : dense p -> dense p'
}.
Lemma later_refl p : later p p.
Proof. constructor; auto. apply incl_refl. Qed.
Lemma later_trans p p' p'' : later p p' -> later p' p'' -> later p p''.
Proof. intros [A B C D] [A' B' C' D']. constructor; [congruence|auto|eapply incl_tran; eauto|auto]. Qed.
Lemma variable_step scope ns i p : good scope ns p ->
  let '(x, p') := type_variable i p in
  good scope ns p' /\ later p p' /\ name_of p' i = Some x
  /\ (name_of p i = None -> lowercase x /\ ~ In x (taken p)
      /\ (dense p -> forall y, lowercase y -> precedes y x -> In y (taken p))).
Proof.
  intros [G1 G2 G3 G4]. unfold type_variable.
  destruct (get N.eqb i (type_variables (p_names p))) as [x|] eqn:E1.
  { split; [now constructor|]. split; [apply later_refl|]. unfold name_of. rewrite E1. split; [reflexivity|discriminate]. }
  destruct (get N.eqb i (printed_type_variables p)) as [x|] eqn:E2.
  { split; [now constructor|]. split; [apply later_refl|]. unfold name_of. rewrite E1. split; [auto|congruence]. }
  destruct (new_variable_spec i (S (length (printed_type_variable_names p))) p (fresh_letter p)) as [k [-> [N J]]].
  destruct (letter_value (uid p + k)) as [V Lx]. remember (letter (uid p + k)) as x eqn:Ex.
  assert (Gp : forall j, get N.eqb j (put N.eqb i x (printed_type_variables p)) = if j =? i then Some x else get N.eqb j (printed_type_variables p))
    by (intros j; apply (get_put _ N.eqb_eq)).
  assert (Nx : forall j, get N.eqb j (printed_type_variables p) <> Some x).
  { intros j H. apply G3 in H as [[k' [K' E]] _]. rewrite Ex in E. apply letter_injective in E. lia. }
  split; [|split; [|split]].
  - constructor; cbn [p_names uid printed_type_variables taken printed_type_variable_names].
    + auto.
    + intros y H. right. now apply G2.
    + intros j y. rewrite Gp. destruct (j =? i); intros H.
      * injection H as <-. split; [exists (uid p + k); split; [lia|auto]|]. split; [auto|]. intros H. apply N. now apply G2.
      * destruct (G3 _ _ H) as [[k' [A A']] B]. split; [exists k'; split; [lia|auto]|auto].
    + intros j j' y. rewrite !Gp. destruct (j =? i) eqn:Ej, (j' =? i) eqn:Ej'; intros H H'.
      * lia.
      * injection H as <-. now apply Nx in H'.
      * injection H' as <-. now apply Nx in H.
      * eauto.
  - constructor; cbn [p_names taken printed_type_variable_names]; [auto| |apply incl_tl, incl_refl|].
    + intros j y. unfold name_of. cbn [p_names printed_type_variables]. destruct (get N.eqb j (type_variables (p_names p))); [auto|].
      rewrite Gp. destruct (N.eqb_spec j i) as [->|D]; [congruence|auto].
    + unfold dense. cbn [uid taken printed_type_variable_names]. intros G5 j H.
      destruct (N.eq_dec j (uid p + k)) as [->|D]; [left; congruence|]. right.
      destruct (N.ltb_spec j (uid p)) as [L|L]; [now apply G5|]. replace j with (uid p + (j - uid p)) by lia. apply J. lia.
  - unfold name_of. cbn [p_names printed_type_variables]. rewrite E1, Gp, N.eqb_refl. reflexivity.
  - intros _. split; [auto|]. split; [auto|]. intros G5 y Ly P.
    destruct (letter_surjective y Ly) as [n [-> Vn]]. apply precedes_value in P; [|apply Ly|apply Lx].
    destruct (N.ltb_spec n (uid p)) as [L|L]; [now apply G5|]. replace n with (uid p + (n - uid p)) by lia. apply J. lia.
Qed.
Lemma register_step scope ns x p : good scope ns p ->
  good scope ns (register_type_variable x p) /\ later p (register_type_variable x p).
Proof.
  intros [G1 G2 G3 G4]. split.
  - constructor; cbn [register_type_variable p_names uid printed_type_variables taken printed_type_variable_names]; auto.
    intros y H. right. now apply G2.
  - constructor; cbn [register_type_variable p_names taken printed_type_variable_names]; auto.
    + apply incl_tl, incl_refl.
    + intros D j H. right. now apply D.
Qed.
Lemma clear_step scope ns p : good scope ns p -> good (fun _ => False) ns (clear_type_variables p)
  /\ (forall i, name_of (clear_type_variables p) i = name_of p i).
Proof.
  intros [G1 G2 G3 G4]. split; [|reflexivity].
  constructor; cbn [clear_type_variables p_names uid printed_type_variables]; auto.
  intros i x H. destruct (G3 _ _ H) as [A [B C]]. auto.
Qed.

(** ** Printing *)
Definition printed (scope : text -> Prop) (ns : names) (mode : print_mode) (ts : list type) (p : printer) (text' : (N -> text) -> text) (r : text * printer) : Prop :=
  let '(x, p') := r in
  good scope ns p' /\ later p p'
  /\ (forall i, In i (flat_map variables ts) -> name_of p' i <> None)
  /\ (forall name, (forall i, In i (flat_map variables ts) -> name_of p' i = Some (name i)) -> x = text' name).
Definition by_mode (ns : names) (mode : print_mode) (m n : text) : name_context_information := named_type m n mode ns.
Lemma stays p p' i : later p p' -> name_of p i <> None -> name_of p' i <> None.
Proof. intros L H. destruct (name_of p i) eqn:E; [|congruence]. apply (l_name_of _ _ L) in E. congruence. Qed.
Lemma same_name p p' i x : later p p' -> name_of p i <> None -> name_of p' i = Some x -> name_of p i = Some x.
Proof. intros L H E. destruct (name_of p i) eqn:E'; [|congruence]. apply (l_name_of _ _ L) in E'. congruence. Qed.
Lemma arguments_printed scope ns mode ts :
  Forall (fun t => forall p, good scope ns p -> printed scope ns mode [t] p (fun name => writing (pieces (by_mode ns mode) name t)) (print mode t p)) ts ->
  forall p, good scope ns p ->
  printed scope ns mode ts p (fun name => writing (commas (map (pieces (by_mode ns mode) name) ts))) (print_arguments (print mode) ts p).
Proof.
  induction 1 as [|t ts H _ IH]; intros p G.
  - cbn. split; [auto|]. split; [apply later_refl|]. split; [intros i []|reflexivity].
  - destruct ts as [|t' ts].
    + exact (H p G).
    + change (print_arguments (print mode) (t :: t' :: ts) p)
        with (let '(a, p) := print mode t p in
              let '(b, p) := print_arguments (print mode) (t' :: ts) p in (a ++ str ", " ++ b, p)).
      specialize (H p G). destruct (print mode t p) as [a p1]. destruct H as [G1 [L1 [V1 T1]]].
      specialize (IH p1 G1). destruct (print_arguments (print mode) (t' :: ts) p1) as [b p2].
      destruct IH as [G2 [L2 [V2 T2]]]. cbn [flat_map] in V1, T1. rewrite app_nil_r in V1, T1.
      split; [auto|]. split; [eapply later_trans; eauto|].
      change (flat_map variables (t :: t' :: ts)) with (variables t ++ flat_map variables (t' :: ts)). split.
      * intros i I. apply in_app_iff in I as [I|I]; [|auto]. eapply stays; eauto.
      * intros name N. 
        change (commas (map (pieces (by_mode ns mode) name) (t :: t' :: ts)))
          with (pieces (by_mode ns mode) name t ++ sym Comma :: Gap [32] :: commas (map (pieces (by_mode ns mode) name) (t' :: ts))).
        rewrite writing_app. f_equal.
        -- apply T1. intros i I. eapply same_name; [exact L2|auto|apply N; apply in_app_iff; auto].
        -- cbn [writing flat_map written sym symbol_text]. change (flat_map written) with writing.
           rewrite <- (T2 name); [reflexivity|]. intros i I. apply N, in_app_iff. auto.
Qed.
Lemma name_writing i : written_name i = writing (name_pieces i).
Proof. destruct i; cbn; rewrite ?app_nil_r; reflexivity. Qed.
Lemma type_printed scope ns mode t : forall p, good scope ns p ->
  printed scope ns mode [t] p (fun name => writing (pieces (by_mode ns mode) name t)) (print mode t p).
Proof.
  induction t as [m n a H|a r H Hr|i|e H] using type_induction; intros p G; cbn [print].
  - pose proof (arguments_printed scope ns mode a H p G) as A. cbn [pieces].
    assert (E : named_type m n mode (p_names p) = by_mode ns mode m n) by (rewrite (g_names _ _ _ G); reflexivity).
    rewrite E. destruct a as [|t a].
    + cbn. split; [auto|]. split; [apply later_refl|]. split; [intros i []|]. intros name _. rewrite app_nil_r. apply name_writing.
    + destruct (print_arguments (print mode) (t :: a) p) as [x p1]. destruct A as [G1 [L1 [V1 T1]]].
      unfold printed. cbn [flat_map variables]. rewrite app_nil_r. split; [auto|]. split; [auto|]. split; [auto|].
      intros name N. rewrite writing_app, <- name_writing. f_equal.
      change (writing (sym LeftParen :: ?l)) with (str "(" ++ writing l). f_equal. rewrite writing_app. f_equal.
      apply T1. exact N.
  - pose proof (arguments_printed scope ns mode a H p G) as A. destruct (print_arguments (print mode) a p) as [x p1].
    destruct A as [G1 [L1 [V1 T1]]]. specialize (Hr p1 G1). destruct (print mode r p1) as [y p2].
    destruct Hr as [G2 [L2 [V2 T2]]]. unfold printed. cbn [flat_map variables] in *. rewrite app_nil_r in *.
    split; [auto|]. split; [eapply later_trans; eauto|]. split.
    + intros i I. apply in_app_iff in I as [I|I]; [|auto]. eapply stays; eauto.
    + intros name N. rewrite (T1 name), (T2 name).
      * cbn [pieces]. change (writing (Tok (Keyword Fn) (str "fn") :: sym LeftParen :: ?l)) with (str "fn(" ++ writing l).
        f_equal. rewrite writing_app. f_equal.
      * intros i I. apply N, in_app_iff. auto.
      * intros i I. eapply same_name; [exact L2|auto|apply N, in_app_iff; auto].
  - pose proof (variable_step scope ns i p G) as V. destruct (type_variable i p) as [x p1]. destruct V as [G1 [L1 [N1 _]]].
    split; [auto|]. split; [auto|]. split.
    + intros j [<-|[]]. congruence.
    + intros name N. specialize (N i ltac:(now left)). cbn. rewrite app_nil_r. congruence.
  - pose proof (arguments_printed scope ns mode e H p G) as A. destruct (print_arguments (print mode) e p) as [x p1].
    destruct A as [G1 [L1 [V1 T1]]]. unfold printed. cbn [flat_map variables]. rewrite app_nil_r. split; [auto|]. split; [auto|]. split; [auto|].
    intros name N. cbn [pieces]. change (writing (sym Hash :: sym LeftParen :: ?l)) with (str "#(" ++ writing l).
    f_equal. rewrite writing_app. f_equal. apply T1. exact N.
Qed.
Definition given_in (ns : names) (x : text) : Prop := exists i, get N.eqb i (type_variables ns) = Some x.
Lemma new_printer_good ns : good (given_in ns) ns (new_printer ns) /\ dense (new_printer ns).
Proof.
  split; [|intros j H; cbn in H; lia]. constructor; cbn; try discriminate; try reflexivity.
  intros x [i H]. apply (get_in _ N.eqb_eq) in H. apply in_map_iff. exists (i, x). auto.
Qed.
Lemma new_without_good ns : good (fun _ => False) ns (new_without_type_variables ns).
Proof. constructor; cbn; try discriminate; try reflexivity. tauto. Qed.
Lemma used_later scope ns p p' : good scope ns p -> used false p p' -> good scope ns p' /\ later p p'.
Proof.
  intros G. induction 1 as [|t p' _ [G' L]|t p' _ [G' L]|i p' _ [G' L]|x p' _ [G' L]|p' E]; [| | | | |discriminate E].
  - split; [auto|apply later_refl].
  - pose proof (type_printed scope ns Normal t p' G') as P. unfold print_type. destruct (print Normal t p'). split; [apply P|eapply later_trans; [exact L|apply P]].
  - pose proof (type_printed scope ns ExpandAliases t p' G') as P. unfold print_type_without_aliases. destruct (print ExpandAliases t p'). split; [apply P|eapply later_trans; [exact L|apply P]].
  - pose proof (variable_step scope ns i p' G') as P. destruct (type_variable i p'). split; [apply P|eapply later_trans; [exact L|apply P]].
  - destruct (register_step scope ns x p' G') as [A B]. split; [auto|eapply later_trans; eauto].
Qed.
Lemma used_anyhow ns p p' : good (fun _ => False) ns p -> used true p p' ->
  good (fun _ => False) ns p' /\ (forall i x, name_of p i = Some x -> name_of p' i = Some x).
Proof.
  intros G. induction 1 as [|t p' _ [G' L]|t p' _ [G' L]|i p' _ [G' L]|x p' _ [G' L]|p' E _ [G' L]].
  - auto.
  - pose proof (type_printed _ ns Normal t p' G') as P. unfold print_type. destruct (print Normal t p'). split; [apply P|].
    intros i x H. apply (l_name_of p'); [apply P|auto].
  - pose proof (type_printed _ ns ExpandAliases t p' G') as P. unfold print_type_without_aliases. destruct (print ExpandAliases t p'). split; [apply P|].
    intros i x H. apply (l_name_of p'); [apply P|auto].
  - pose proof (variable_step _ ns i p' G') as P. destruct (type_variable i p'). split; [apply P|].
    intros j x H. apply (l_name_of p'); [apply P|auto].
  - destruct (register_step _ ns x p' G') as [A B]. split; [auto|]. intros j y H. apply (l_name_of p'); auto.
  - destruct (clear_step _ ns p' G') as [A B]. split; [auto|]. intros j y H. rewrite B. auto.
Qed.
Lemma good_weaken scope ns p : good scope ns p -> good (fun _ => False) ns p.
Proof. intros [A B C D]. constructor; auto; try tauto. intros i x H. destruct (C _ _ H) as [E [F _]]. auto. Qed.
Lemma name_of_variable i p x : name_of p i = Some x -> type_variable i p = (x, p).
Proof.
  unfold name_of, type_variable. destruct (get N.eqb i (type_variables (p_names p))); [congruence|]. intros ->. reflexivity.
Qed.
Lemma given_get vs : forall ns i, get N.eqb i (type_variables (with_variables vs ns))
  = match given_name vs i with Some x => Some x | None => get N.eqb i (type_variables ns) end.
Proof.
  induction vs as [|[j x] vs IH]; intros ns i; [reflexivity|]. unfold with_variables in *. cbn [fold_left given_name fst snd].
  rewrite IH. destruct (given_name vs i); [reflexivity|]. cbn [type_variable_in_scope type_variables].
  rewrite (get_put _ N.eqb_eq). destruct (N.eq_dec i j) as [->|D]; [now rewrite N.eqb_refl|]. now rewrite (proj2 (N.eqb_neq i j) D).
Qed.
Lemma with_variables_rest vs : forall ns, let ns' := with_variables vs ns in
  local_types ns' = local_types ns /\ imported_modules ns' = imported_modules ns /\ reexport_aliases ns' = reexport_aliases ns.
Proof.
  induction vs as [|v vs IH]; intros ns; [auto|]. unfold with_variables in *. cbn [fold_left].
  destruct (IH (type_variable_in_scope (fst v) (snd v) ns)) as [-> [-> ->]]. auto.
Qed.
