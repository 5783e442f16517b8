(** Types that are printed and read. *)
From Coq Require Import String NArith List Bool Arith Lia.
From Verif Require Import Text TextProofs Lexer LexerSpec LexerProofs LexerWhole TypePrinter TypePrinterSpec TypePrinterLex
  TypePrinterScopeProofs TypePrinterReadProofs TypePrinterNamesProofs.
Require Import ZifyBool ZifyNat ZifyN.
Import ListNotations.
Local Open Scope list_scope.
Local Open Scope nat_scope.

(** ** No type variable has a name at first *)
Lemma type_in_scope_variables a t ps ns : type_variables (type_in_scope a t ps ns) = type_variables ns.
Proof. unfold type_in_scope. destruct t; try destruct (compare_arguments arguments ps); reflexivity. Qed.
Lemma build_names_variables w p : type_variables (build_names w p) = [].
Proof.
  unfold build_names. set (ns0 := fold_left _ _ new_names).
  assert (E : type_variables ns0 = []).
  { unfold ns0. generalize (map fst (mi_types p)). intros l. change (@nil (N * text)) with (type_variables new_names).
    generalize new_names. induction l as [|x l IH]; intros ns; [reflexivity|]. cbn [fold_left]. rewrite IH. reflexivity. }
  rewrite <- E. generalize ns0. clear. induction (modules w) as [|[m i] l IH]; intros ns; [reflexivity|].
  cbn [fold_left]. rewrite IH. destruct (mi_is_internal i); [reflexivity|]. generalize ns. clear.
  induction (mi_aliases i) as [|a l IH]; intros ns; [reflexivity|]. cbn [fold_left]. rewrite IH.
  destruct (ta_public (snd a)); [|reflexivity]. apply maybe_reexport_rest.
Qed.
Lemma register_variables w s e e' : register w s e = Some e' -> type_variables (env_names e') = type_variables (env_names e).
Proof.
  destruct s as [m u types|n ids importable|n ids t importable public]; cbn [register].
  - destruct (get text_eqb m (modules w)) as [i|]; [|discriminate].
    destruct (register_module m u i e) as [e1|] eqn:R1; [|discriminate]. intros R.
    assert (E : type_variables (env_names e1) = type_variables (env_names e)).
    { destruct u as [u|]; cbn [register_module] in R1; [|now injection R1 as <-].
      destruct (get text_eqb u (env_imported_modules e)); [discriminate|]. injection R1 as <-. reflexivity. }
    rewrite <- E. clear E R1. revert e1 R. induction types as [|[x y] types IH]; intros e1 R; cbn [register_unqualified_types] in R.
    + now injection R as <-.
    + destruct (register_unqualified_type i (x, y) e1) as [e2|] eqn:R2; [|discriminate]. rewrite (IH e2 R).
      unfold register_unqualified_type in R2. destruct (get_importable_type (fst (x, y)) i) as [c|]; [|discriminate].
      apply insert_inv in R2 as [_ ->]. apply type_in_scope_variables.
  - unfold register_custom_type. destruct (name_taken n e); [discriminate|]. destruct (insert_type_constructor _ _ _) as [e1|] eqn:I; [|discriminate].
    intros H. injection H as <-. apply insert_inv in I as [_ ->]. reflexivity.
  - unfold register_type_alias. destruct (name_taken n e); [discriminate|]. destruct (insert_type_constructor _ _ _) as [e1|] eqn:I; [|discriminate].
    intros H. injection H as <-. apply insert_inv in I as [_ ->]. cbn [set_names env_names].
    rewrite (proj2 (proj2 (maybe_reexport_rest _ _ _ _ _ _))). apply type_in_scope_variables.
Qed.
Lemma analysed_variables w module package ss e : analysed_types w module package ss = Some e -> type_variables (env_names e) = [].
Proof.
  unfold analysed_types, new_environment. destruct (get text_eqb prelude (modules w)) as [p|]; [|discriminate].
  intros R. rewrite <- (build_names_variables w p). 
  change (type_variables (build_names w p)) with (type_variables (env_names (Environment module package (mi_types p) [] (build_names w p)))).
  revert R. generalize (Environment module package (mi_types p) [] (build_names w p)).
  induction ss as [|s ss IH]; intros e0 R; cbn [register_all] in R; [now injection R as <-|].
  destruct (register w s e0) as [e1|] eqn:R1; [|discriminate]. rewrite (IH e1 R). eapply register_variables; eauto.
Qed.

Lemma by_mode_with vs ns mode m n : by_mode (with_variables vs ns) mode m n = by_mode ns mode m n.
Proof. unfold by_mode, named_type. destruct (with_variables_rest vs ns) as [-> [-> ->]]. reflexivity. Qed.
Lemma found_proper arity e i m n : found arity e i m n -> name_proper i.
Proof.
  destruct i as [m' a|a|u a]; cbn; [tauto| |]; intros H; split; cbn; try tauto; try discriminate.
  intros u' E. injection E as <-. tauto.
Qed.
Lemma given_in_list vs i x : given_name vs i = Some x -> In (i, x) vs.
Proof.
  induction vs as [|[j y] vs IH]; cbn [given_name]; [discriminate|].
  destruct (given_name vs i) as [z|] eqn:Ez; [intros E; right; auto|].
  destruct (N.eq_dec i j) as [E|E]; [|discriminate]. intros H. injection H as H. left. congruence.
Qed.
Definition shown (p : printer) (i : N) : text := fst (type_variable i p).
Lemma shown_name p i : name_of p i <> None -> name_of p i = Some (shown p i).
Proof. intros H. destruct (name_of p i) as [x|] eqn:E; [|congruence]. unfold shown. now rewrite (name_of_variable _ _ _ E). Qed.
Lemma shown_word scope ns vs p i : good scope ns p -> (forall i x, get N.eqb i (type_variables ns) = Some x -> given_name vs i = Some x) ->
  (forall i x, In (i, x) vs -> is_a_name x) -> name_of p i <> None ->
  (forall k, shown p i <> keyword_text k) -> is_a_name (shown p i).
Proof.
  intros G Gv V H K. apply shown_name in H. unfold name_of in H. rewrite (g_names _ _ _ G) in H.
  destruct (get N.eqb i (type_variables ns)) as [x|] eqn:E.
  - injection H as Hx. rewrite <- Hx. apply (V i). apply given_in_list. auto.
  - destruct (g_printed _ _ _ G _ _ H) as [_ [[Ne F] _]]. destruct (shown p i) as [|c w]; [congruence|].
    inversion F as [|? ? Fc Fw]; subst. apply word_name; [auto| |].
    + eapply Forall_impl; [|exact Fw]. intros d Hd. unfold a_word_character. auto.
    + intros k Ek. apply (K k). now symmetry.
Qed.
Lemma given_list vs ns i x : type_variables ns = [] ->
  get N.eqb i (type_variables (with_variables vs ns)) = Some x -> given_name vs i = Some x.
Proof. intros E. rewrite given_get, E. destruct (given_name vs i); [auto|discriminate]. Qed.
Lemma given_list_inv vs ns i : type_variables ns = [] ->
  get N.eqb i (type_variables (with_variables vs ns)) = given_name vs i.
Proof. intros E. rewrite given_get, E. destruct (given_name vs i); reflexivity. Qed.

Theorem reads_back arity w module package ss e vs p t :
  sound_world arity w -> module <> prelude -> Forall (sound_statement arity module) ss ->
  analysed_types w module package ss = Some e ->
  (forall m n, mentions m n t -> in_sight w module ss m n) -> well_formed arity t ->
  (forall i x, In (i, x) vs -> is_a_name x) ->
  used false (new_printer (with_variables vs (env_names e))) p ->
  readable_variables vs t (snd (print_type t p)) ->
  exists t', annotation e (fst (print_type t p)) = Some t' /\ alike t t'.
Proof.
  intros Sw Mp A R I Wf V U [K D]. set (ns := with_variables vs (env_names e)) in *.
  destruct (used_later _ _ _ _ (proj1 (new_printer_good ns)) U) as [G _].
  pose proof (type_printed _ ns Normal t p G) as P. unfold print_type in *. destruct (print Normal t p) as [x p'].
  cbn [fst snd] in *. destruct P as [G' [L [N T]]]. cbn [flat_map] in N, T. rewrite app_nil_r in N, T.
  pose proof (analysed_variables _ _ _ _ _ R) as Ev.
  rewrite (T (shown p')) by (intros i Hi; apply shown_name; auto).
  assert (F : forall m n, mentions m n t -> found arity e (by_mode ns Normal m n) m n).
  { intros m n M. unfold ns. rewrite by_mode_with. eapply sighted_found; eauto. }
  eapply pieces_annotation with (arity := arity).
  - split.
    + intros m n M. eapply found_proper. eauto.
    + intros i Hi. eapply shown_word; eauto. intros j y. now apply given_list.
  - auto.
  - auto.
  - intros i j Hi Hj E. pose proof (shown_name p' i (N i Hi)) as Ei. pose proof (shown_name p' j (N j Hj)) as Ej.
    rewrite <- E in Ej. unfold name_of in Ei, Ej. rewrite (g_names _ _ _ G') in Ei, Ej.
    destruct (get N.eqb i (type_variables ns)) as [y|] eqn:Gi, (get N.eqb j (type_variables ns)) as [z|] eqn:Gj.
    + apply (D i j (shown p' i)); auto; eapply given_list; eauto; [rewrite Ei in Gi|rewrite Ej in Gj]; auto.
    + exfalso. apply (g_printed _ _ _ G') in Ej as [_ [_ Ej]]. apply Ej. exists i. congruence.
    + exfalso. apply (g_printed _ _ _ G') in Ei as [_ [_ Ei]]. apply Ei. exists j. congruence.
    + eapply (g_one _ _ _ G'); eauto.
Qed.

(** ** Trees *)
Lemma ast_stands q name (written : text -> text -> option text -> text -> Prop) t :
  (forall m n, mentions m n t -> written m n (name_module (q m n)) (name_itself (q m n))) ->
  stands_for written name t (ast q name t).
Proof.
  assert (E : forall l, Forall (fun t => stands_for written name t (ast q name t)) l ->
     Forall2 (stands_for written name) l (map (ast q name) l)).
  { induction 1; cbn; constructor; auto. }
  induction t as [m n a H|a r H Hr|i|e H] using type_induction; intros W; cbn [ast].
  - replace (match a with [] => false | _ :: _ => true end) with (negb (length a =? 0)) by (now destruct a).
    constructor; [apply W; constructor|]. apply E. rewrite Forall_forall in H |- *. intros t I. apply H; eauto using mentions_argument.
  - constructor; [|apply Hr; eauto using mentions_return].
    apply E. rewrite Forall_forall in H |- *. intros t I. apply H; eauto using mentions_parameter.
  - constructor.
  - constructor. apply E. rewrite Forall_forall in H |- *. intros t I. apply H; eauto using mentions_element.
Qed.
Lemma last_segment_last m : last_part m (last_segment m).
Proof.
  induction m as [|c m IH]; cbn [last_segment]; [split; auto|]. destruct (existsb (N.eqb 47) (c :: m)) eqn:E.
  - cbn [existsb] in E. destruct IH as [N P]. split; [auto|]. right. destruct P as [P|[a P]].
    + exists []. cbn. destruct (N.eqb_spec 47 c) as [<-|D]; [congruence|]. cbn in E. exfalso.
      apply existsb_exists in E as [d [I Ed]]. apply N.eqb_eq in Ed. subst d. rewrite P in I. contradiction.
    + exists (c :: a). cbn. congruence.
  - split; [|now left]. intros I. assert (X : existsb (N.eqb 47) (c :: m) = true) by (apply existsb_exists; exists 47%N; auto).
    congruence.
Qed.
Lemma last_part_one m s s' : last_part m s -> last_part m s' -> s = s'.
Proof.
  assert (K : forall a a' s s', a ++ 47%N :: s = a' ++ 47%N :: s' -> ~ In 47%N s -> ~ In 47%N s' -> s = s').
  { induction a as [|x a IH]; intros [|x' a'] u u' E N N'; cbn in E; injection E; intros; subst; auto.
    - exfalso. apply N. apply in_elt.
    - exfalso. apply N'. apply in_elt.
    - eauto. }
  intros [N [->|[a ->]]] [N' [E|[a' E]]]; auto.
  - subst s. exfalso. apply N. apply in_elt.
  - subst s'. exfalso. apply N'. apply in_elt.
  - eauto.
Qed.
Lemma imported_register w s e e' m : register w s e = Some e' ->
  get text_eqb m (imported_modules (env_names e'))
  = match imported_as [s] m with Some u => Some u | None => get text_eqb m (imported_modules (env_names e)) end.
Proof.
  destruct s as [m' u types|n ids importable|n ids t importable public]; cbn [register imported_as].
  - destruct (get text_eqb m' (modules w)) as [i|]; [|discriminate].
    destruct (register_module m' u i e) as [e1|] eqn:R1; [|discriminate]. intros R.
    transitivity (get text_eqb m (imported_modules (env_names e1))).
    { f_equal. clear R1. revert e1 R. induction types as [|[x y] types IH]; intros e1 R; cbn [register_unqualified_types] in R.
      + now injection R as <-.
      + destruct (register_unqualified_type i (x, y) e1) as [e2|] eqn:R2; [|discriminate]. rewrite (IH e2 R).
        apply unqualified_binds in R2 as [c [_ [_ [B _]]]]. apply B. }
    destruct u as [u|]; cbn [register_module] in R1; [|now injection R1 as <-].
    destruct (get text_eqb u (env_imported_modules e)); [discriminate|]. injection R1 as <-.
    cbn [env_names imported_module imported_modules]. rewrite (get_put _ text_eqb_iff).
    destruct (list_eq_dec N.eq_dec m m') as [->|N]; [now rewrite text_eqb_refl|].
    destruct (text_eqb m m') eqn:E; [apply text_eqb_eq in E; contradiction|reflexivity].
  - intros R. apply custom_type_binds in R as [B _]. f_equal. apply B.
  - intros R. apply alias_binds in R as [B _]. f_equal. apply B.
Qed.
Lemma imported_as_spec w module package ss e m : analysed_types w module package ss = Some e ->
  get text_eqb m (imported_modules (env_names e)) = imported_as ss m.
Proof.
  unfold analysed_types. destruct (new_environment w module package) as [e0|] eqn:N; [|discriminate]. intros R.
  assert (E0 : get text_eqb m (imported_modules (env_names e0)) = None).
  { unfold new_environment in N. destruct (get text_eqb prelude (modules w)) as [p|]; [|discriminate]. injection N as <-.
    cbn [env_names]. unfold build_names. set (ns0 := fold_left _ _ new_names).
    change (fold_left _ (modules w) ns0) with (fold_left (add_module w) (modules w) ns0).
    destruct (add_modules w (modules w) ns0) as [[_ S] _]. rewrite S. unfold ns0.
    now rewrite (proj1 (names_folded_rest (map fst (mi_types p)) new_names)). }
  assert (G : forall ss e0, register_all w ss e0 = Some e -> get text_eqb m (imported_modules (env_names e))
     = match imported_as ss m with Some u => Some u | None => get text_eqb m (imported_modules (env_names e0)) end).
  { clear. induction ss as [|s ss IH]; intros e0 R; cbn [register_all] in R; [now injection R as <-|].
    destruct (register w s e0) as [e1|] eqn:R1; [|discriminate]. rewrite (IH e1 R), (imported_register _ _ _ _ m R1).
    cbn [imported_as]. destruct (imported_as ss m); [reflexivity|]. cbn. destruct s as [m' [u|] types| |]; reflexivity. }
  rewrite (G ss e0 R), E0. destruct (imported_as ss m); reflexivity.
Qed.

(** ** Constructors *)
Lemma naming_dec (a b : naming) : {a = b} + {a <> b}.
Proof. decide equality; apply (list_eq_dec N.eq_dec). Qed.
Lemma name_all_app l x ns : name_all (l ++ [x]) ns = name_it x (name_all l ns).
Proof. unfold name_all. rewrite fold_left_app. reflexivity. Qed.
Lemma locally_named_spec l m n a :
  In ((m, n), a) (local_value_constructors (name_all l new_names)) <-> locally_named l m n a.
Proof.
  revert m n a. induction l as [|x l IH] using rev_ind; intros m n a.
  - split; [intros []|]. intros [b [af [E _]]]. now destruct b.
  - rewrite name_all_app. destruct x as [m' n' a'|m' u].
    + cbn [name_it named_constructor_in_scope local_value_constructors]. rewrite in_bimap_insert, in_remove_by_right, IH. split.
      * intros [E|[[[b [af [-> [B C]]]] D1] [D2 D3]]].
        -- injection E as -> -> ->. exists l, []. split; [reflexivity|]. split; auto.
        -- exists b, (af ++ [ConstructorNamed m' n' a']). rewrite <- app_assoc. split; [reflexivity|]. split.
           ++ intros a2 I. apply in_app_iff in I as [I|[I|[]]]; [eapply B; eauto|]. injection I as -> -> ->. congruence.
           ++ intros m2 n2 I. apply in_app_iff in I as [I|[I|[]]]; [eapply C; eauto|]. injection I as -> -> ->. congruence.
      * intros [b [af [E [B C]]]]. destruct af as [|y af _] using rev_ind.
        -- apply app_inj_tail in E as [-> E]. injection E as -> -> ->. now left.
        -- rewrite app_comm_cons, app_assoc in E. apply app_inj_tail in E as [-> <-]. right. split; [split|split].
           ++ exists b, af. split; [reflexivity|]. split; intros; intros I; [eapply B|eapply C]; apply in_app_iff; left; eauto.
           ++ intros ->. eapply C. apply in_app_iff. right. left. reflexivity.
           ++ intros E. injection E as -> ->. eapply B. apply in_app_iff. right. left. reflexivity.
           ++ intros ->. eapply C. apply in_app_iff. right. left. reflexivity.
    + cbn [name_it imported_module local_value_constructors]. rewrite IH. split.
      * intros [b [af [-> [B C]]]]. exists b, (af ++ [ModuleNamed m' u]). rewrite <- app_assoc. split; [reflexivity|].
        split; intros; intros I; apply in_app_iff in I as [I|[I|[]]]; try discriminate; [eapply B|eapply C]; eauto.
      * intros [b [af [E [B C]]]]. destruct af as [|y af _] using rev_ind.
        -- apply app_inj_tail in E as [_ E]. discriminate.
        -- rewrite app_comm_cons, app_assoc in E. apply app_inj_tail in E as [-> _]. exists b, af. split; [reflexivity|].
           split; intros; intros I; [eapply B|eapply C]; apply in_app_iff; left; eauto.
Qed.
Lemma module_named_spec l m u :
  get text_eqb m (imported_modules (name_all l new_names)) = Some u <-> module_named l m u.
Proof.
  revert u. induction l as [|x l IH] using rev_ind; intros u.
  - split; [discriminate|]. intros [b [af [E _]]]. now destruct b.
  - rewrite name_all_app. destruct x as [m' n' a'|m' u'].
    + cbn [name_it named_constructor_in_scope imported_modules]. rewrite IH. split.
      * intros [b [af [-> B]]]. exists b, (af ++ [ConstructorNamed m' n' a']). rewrite <- app_assoc. split; [reflexivity|].
        intros u2 I; apply in_app_iff in I as [I|[I|[]]]; try discriminate; eapply B; eauto.
      * intros [b [af [E B]]]. destruct af as [|y af _] using rev_ind.
        -- apply app_inj_tail in E as [_ E]. discriminate.
        -- rewrite app_comm_cons, app_assoc in E. apply app_inj_tail in E as [-> _]. exists b, af. split; [reflexivity|].
           intros u2 I. eapply B; apply in_app_iff; left; eauto.
    + cbn [name_it imported_module imported_modules]. rewrite (get_put _ text_eqb_iff). destruct (text_eqb m m') eqn:Em.
      * apply text_eqb_eq in Em. subst m'. split.
        -- intros E. injection E as ->. exists l, []. split; [reflexivity|auto].
        -- intros [b [af [E B]]]. destruct af as [|y af _] using rev_ind.
           ++ apply app_inj_tail in E as [_ E]. congruence.
           ++ rewrite app_comm_cons, app_assoc in E. apply app_inj_tail in E as [_ <-]. exfalso. eapply B. apply in_app_iff. right. left. reflexivity.
      * rewrite IH. assert (m <> m') by (intros ->; now rewrite text_eqb_refl in Em). split.
        -- intros [b [af [-> B]]]. exists b, (af ++ [ModuleNamed m' u']). rewrite <- app_assoc. split; [reflexivity|].
           intros u2 I; apply in_app_iff in I as [I|[I|[]]]; [eapply B; eauto|]. congruence.
        -- intros [b [af [E B]]]. destruct af as [|y af _] using rev_ind.
           ++ apply app_inj_tail in E as [_ E]. congruence.
           ++ rewrite app_comm_cons, app_assoc in E. apply app_inj_tail in E as [-> _]. exists b, af. split; [reflexivity|].
              intros u2 I. eapply B; apply in_app_iff; left; eauto.
Qed.

(** ** Names of variables *)
Inductive reached (p : printer) : printer -> Prop :=
| reached_it : reached p p
| reached_variable i p' : reached p p' -> reached p (snd (type_variable i p')).
Lemma reached_trans p p' p'' : reached p p' -> reached p' p'' -> reached p p''.
Proof. intros R. induction 1; [auto|]. now constructor. Qed.
Lemma arguments_reached f l : Forall (fun t => forall p, reached p (snd (f t p))) l ->
  forall p, reached p (snd (print_arguments f l p)).
Proof.
  induction 1 as [|t l H _ IH]; intros p; cbn [print_arguments]; [constructor|].
  destruct l as [|t' l]; [apply H|]. specialize (H p). destruct (f t p) as [a p1]. specialize (IH p1).
  destruct (print_arguments f (t' :: l) p1) as [b p2]. cbn [snd] in *. eapply reached_trans; eauto.
Qed.
Lemma print_reached mode t : forall p, reached p (snd (print mode t p)).
Proof.
  induction t as [m n a H|a r H Hr|i|e H] using type_induction; intros p; cbn [print].
  - pose proof (arguments_reached _ _ H p) as A. destruct a; [constructor|].
    destruct (print_arguments (print mode) (t :: a) p). exact A.
  - pose proof (arguments_reached _ _ H p) as A. destruct (print_arguments (print mode) a p) as [x p1].
    specialize (Hr p1). destruct (print mode r p1). cbn [snd] in *. eapply reached_trans; eauto.
  - apply (reached_variable p i p). constructor.
  - pose proof (arguments_reached _ _ H p) as A. destruct (print_arguments (print mode) e p). exact A.
Qed.
Definition accounts (p0 : printer) (given : text -> Prop) (p : printer) : Prop :=
  forall y, In y (taken p) ->
    given y \/ (exists q, used false p0 q /\ used false (register_type_variable y q) p)
    \/ exists j, name_of p j = Some y.
Lemma variable_taken scope ns i p y : good scope ns p -> In y (taken (snd (type_variable i p))) ->
  In y (taken p) \/ name_of (snd (type_variable i p)) i = Some y.
Proof.
  intros G. pose proof (variable_step scope ns i p G) as V. revert V. unfold type_variable.
  destruct (get N.eqb i (type_variables (p_names p))); [auto|].
  destruct (get N.eqb i (printed_type_variables p)); [auto|].
  destruct (new_variable_spec i (S (length (printed_type_variable_names p))) p (fresh_letter p)) as [k [-> _]].
  intros [_ [_ [V _]]]. cbn [snd taken printed_type_variable_names]. intros [E|I]; [right; rewrite <- E; auto|auto].
Qed.
Lemma accounts_later p0 given p p' : (forall i x, name_of p i = Some x -> name_of p' i = Some x) ->
  (forall q, used false q p -> used false q p') ->
  (forall y, In y (taken p') -> In y (taken p) \/ (exists j, name_of p' j = Some y)) ->
  accounts p0 given p -> accounts p0 given p'.
Proof.
  intros L U T A y I. destruct (T y I) as [I'|J]; [|auto]. destruct (A y I') as [H|[[q [Q R]]|[j J]]]; [auto| |].
  - right. left. exists q. auto.
  - right. right. exists j. auto.
Qed.
Lemma reached_taken scope ns p p' : good scope ns p -> reached p p' ->
  good scope ns p' /\ later p p' /\ forall y, In y (taken p') -> In y (taken p) \/ exists j, name_of p' j = Some y.
Proof.
  intros G. induction 1 as [|i p' _ [G' [L T]]].
  - split; [auto|]. split; [apply later_refl|auto].
  - pose proof (variable_step scope ns i p' G') as V. pose proof (variable_taken scope ns i p') as W.
    destruct (type_variable i p') as [x p2]. cbn [snd] in *. destruct V as [G2 [L2 _]].
    split; [auto|]. split; [eapply later_trans; eauto|]. intros y I. destruct (W y G' I) as [I'|E]; [|eauto].
    destruct (T y I') as [?|[j J]]; [auto|]. right. exists j. now apply (l_name_of _ _ L2).
Qed.
Lemma used_false_trans p p' p'' : used false p p' -> used false p' p'' -> used false p p''.
Proof. intros U. induction 1; try (now constructor); auto. Qed.
Lemma used_accounts scope ns (given : text -> Prop) p0 p : good scope ns p0 -> (forall y, In y (taken p0) -> given y) ->
  used false p0 p -> accounts p0 given p.
Proof.
  intros G T U. induction U as [|t p' U IH|t p' U IH|i p' U IH|x p' U IH|p' E]; [| | | | |discriminate E].
  - intros y I. auto.
  - destruct (used_later _ _ _ _ G U) as [G' _]. destruct (reached_taken _ _ _ _ G' (print_reached Normal t p')) as [G2 [L2 T2]].
    eapply accounts_later; [| | |exact IH]; [apply (l_name_of _ _ L2)| |exact T2]. intros q Q. now apply used_print.
  - destruct (used_later _ _ _ _ G U) as [G' _]. destruct (reached_taken _ _ _ _ G' (print_reached ExpandAliases t p')) as [G2 [L2 T2]].
    eapply accounts_later; [| | |exact IH]; [apply (l_name_of _ _ L2)| |exact T2]. intros q Q. now apply used_print_expanded.
  - destruct (used_later _ _ _ _ G U) as [G' _].
    destruct (reached_taken _ _ _ _ G' (reached_variable p' i p' (reached_it p'))) as [G2 [L2 T2]].
    eapply accounts_later; [| | |exact IH]; [apply (l_name_of _ _ L2)| |exact T2]. intros q Q. now apply used_variable.
  - intros y [<-|I].
    + right. left. exists p'. split; [auto|constructor].
    + destruct (IH y I) as [H|[[q [Q R]]|[j J]]]; [auto| |right; right; exists j; exact J].
      right. left. exists q. split; [auto|]. now apply used_register.
Qed.
Lemma unnamed_none vs ns p i : type_variables ns = [] -> p_names p = with_variables vs ns ->
  unnamed vs p i -> name_of p i = None.
Proof.
  intros E N [A B]. unfold name_of. rewrite N, given_list_inv, A by auto.
  destruct (get N.eqb i (printed_type_variables p)) eqn:G; [|reflexivity]. exfalso. apply B.
  apply (get_in _ N.eqb_eq) in G. apply in_map_iff. exists (i, t). auto.
Qed.
Lemma name_is_taken ns p j y : good (given_in ns) ns p -> dense p -> name_of p j = Some y -> In y (taken p).
Proof.
  intros G D. unfold name_of. rewrite (g_names _ _ _ G). destruct (get N.eqb j (type_variables ns)) as [x|] eqn:E.
  - intros H. injection H as <-. apply (g_scope _ _ _ G). now exists j.
  - intros H. destruct (g_printed _ _ _ G _ _ H) as [[k [K ->]] _]. now apply D.
Qed.
Lemma given_any vs ns j y : type_variables ns = [] ->
  In (j, y) (type_variables (with_variables vs ns)) -> given_name vs j = Some y.
Proof.
  intros E I. apply (given_list vs ns); [auto|].
  assert (K : forall vs ns, (forall k v, In (k, v) (type_variables ns) -> get N.eqb k (type_variables ns) = Some v) ->
     forall k v, In (k, v) (type_variables (with_variables vs ns)) -> get N.eqb k (type_variables (with_variables vs ns)) = Some v).
  { clear. induction vs as [|[i x] vs IH]; intros ns H; [exact H|]. unfold with_variables in *. cbn [fold_left fst snd]. apply IH.
    intros k v. cbn [type_variable_in_scope type_variables]. rewrite (get_put _ N.eqb_eq). unfold put. intros [J|J].
    - injection J as -> ->. now rewrite N.eqb_refl.
    - apply (in_without _ N.eqb_eq) in J as [J D]. destruct (N.eqb_spec k i) as [->|]; [contradiction|]. auto. }
  apply K; [|exact I]. rewrite E. intros k v [].
Qed.
Lemma locally_named_one l m n a a' : locally_named l m n a -> locally_named l m n a' -> a = a'.
Proof.
  intros [b [af [E [N _]]]] [b' [af' [E' [N' _]]]]. subst l.
  revert b' E'. induction b as [|x b IH]; intros [|x' b'] E'; cbn in E'; injection E'; intros; subst; auto.
  - exfalso. eapply N. apply in_elt.
  - exfalso. eapply N'. apply in_elt.
  - eauto.
Qed.
Lemma named_local l m n a : locally_named l m n a ->
  get pair_eqb (m, n) (local_value_constructors (name_all l new_names)) = Some a.
Proof.
  intros L. apply locally_named_spec in L as I. apply (in_get _ pair_eqb_eq) in I as [a' G]. rewrite G. f_equal.
  apply (get_in _ pair_eqb_eq) in G. apply locally_named_spec in G. eapply locally_named_one; eauto.
Qed.
Lemma not_named_local l m n : (forall a, ~ locally_named l m n a) ->
  get pair_eqb (m, n) (local_value_constructors (name_all l new_names)) = None.
Proof.
  intros H. destruct (get pair_eqb (m, n) _) as [a|] eqn:G; [|reflexivity]. apply (get_in _ pair_eqb_eq) in G.
  apply locally_named_spec in G. now apply H in G.
Qed.
