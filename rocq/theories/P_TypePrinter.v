(** Properties C81-C84: types printed for programmers. *)
From Coq Require Import String NArith List Bool Arith Lia.
From Verif Require Import Text TextProofs Lexer LexerSpec TypePrinter TypePrinterSpec TypePrinterLex
  TypePrinterScopeProofs TypePrinterReadProofs TypePrinterNamesProofs TypePrinterProofs.
Require Import ZifyBool ZifyNat ZifyN.
Import ListNotations.
Local Open Scope list_scope.
Local Open Scope nat_scope.

(** ** A world *)
Definition gleam_types : list (text * type_constructor) :=
  [(str "Int", TypeConstructor prelude [] (Named prelude (str "Int") []) true);
   (str "List", TypeConstructor prelude [Var 0] (Named prelude (str "List") [Var 0]) true)].
Definition a_type (m n : text) : text * type_constructor := (n, TypeConstructor m [] (Named m n []) true).
Definition secret : type := Named (str "lib/inner") (str "Secret") [].
Definition the_world : world :=
  World
    [(prelude, Interface [] false gleam_types []);
     (str "a/thing", Interface (str "a") false [a_type (str "a/thing") (str "Thing")] []);
     (str "b/thing", Interface (str "b") false [a_type (str "b/thing") (str "Thing")] []);
     (str "lib/inner", Interface (str "lib") false [a_type (str "lib/inner") (str "Secret")] []);
     (str "lib/api", Interface (str "lib") false
        [(str "Open", TypeConstructor (str "lib/api") [] secret true)] [(str "Open", TypeAlias [] secret true)])]
    (fun m _ => if text_eqb m (str "lib/inner") then str "lib" else [])
    (fun m _ => text_eqb m (str "lib/inner")).
Definition the_arity (m n : text) : nat :=
  if text_eqb m prelude && text_eqb n (str "List") || text_eqb m (str "app") && text_eqb n (str "Box") then 1 else 0.
Definition word_character (c : N) : bool := ((97 <=? c) && (c <=? 122) || (65 <=? c) && (c <=? 90) || (48 <=? c) && (c <=? 57) || (c =? 95))%N.
Lemma word_characters w : forallb word_character w = true -> Forall a_word_character w.
Proof.
  rewrite forallb_forall, Forall_forall. intros H c I. apply H in I. revert I. unfold word_character, a_word_character, a_lower, an_upper, a_digit, between. lia.
Qed.
Lemma type_name w : match w with c :: u => ((65 <=? c) && (c <=? 90))%N && forallb word_character u | [] => false end = true -> is_a_type_name w.
Proof.
  destruct w as [|c u]; [discriminate|]. intros H. apply andb_prop in H as [H I]. exists c, u. split; [reflexivity|].
  split; [unfold an_upper, between; lia|now apply word_characters].
Qed.
Lemma lower_name w : match w with c :: u => ((97 <=? c) && (c <=? 122))%N && forallb word_character u | [] => false end = true ->
  (forall k, keyword_text k <> w) -> is_a_name w.
Proof.
  destruct w as [|c u]; [discriminate|]. intros H K. apply andb_prop in H as [H I].
  apply word_name; [unfold a_lower, between; lia|now apply word_characters|auto].
Qed.
Ltac a_word := apply type_name; vm_compute; reflexivity.
Ltac a_name := apply lower_name; [vm_compute; reflexivity|intros k; destruct k; vm_compute; discriminate].
Lemma the_world_sound : sound_world the_arity the_world.
Proof.
  constructor.
  - cbn. repeat constructor; cbn; intuition discriminate.
  - intros m i n c E I. cbn [the_world modules entry] in E.
    repeat (match type of E with context [list_eq_dec N.eq_dec ?a ?b] => destruct (list_eq_dec N.eq_dec a b) as [->|] end; [injection E as <-|]);
      [..|discriminate]; cbn [mi_types] in I; cbn [In gleam_types a_type] in I; repeat destruct I as [I|I]; try contradiction;
      injection I as <- <-; (split; [a_word|]); (split; [vm_compute; reflexivity|]); split;
      try reflexivity; split; try (exists []; split; [reflexivity|constructor]); try (exists [0%N]; split; [reflexivity|repeat constructor; auto]);
      cbn; repeat constructor.
  - intros m i n c E I P. cbn [the_world modules entry] in E.
    repeat (match type of E with context [list_eq_dec N.eq_dec ?a ?b] => destruct (list_eq_dec N.eq_dec a b) as [->|] end; [injection E as <-|]);
      [..|discriminate]; cbn [mi_aliases] in I; try contradiction. destruct I as [I|[]]. injection I as <- <-.
    eexists. split; [vm_compute; reflexivity|auto].
  - exists (Interface [] false gleam_types []). split; [vm_compute; reflexivity|]. split; [|reflexivity].
    intros n c I. cbn [mi_types gleam_types In] in I. repeat destruct I as [I|I]; try contradiction; injection I as <- <-; reflexivity.
Qed.

(** ** Types read back *)

(** A type is printed so that reading it gives the type, up to the names of its variables, if each
    type named in it can be named in the module. *)
Theorem C81_printed_types_read_back_partial arity w module package ss e vs p t :
  sound_world arity w -> module <> prelude -> Forall (sound_statement arity module) ss ->
  analysed_types w module package ss = Some e ->
  (forall m n, mentions m n t -> in_sight w module ss m n) -> well_formed arity t ->
  (forall i x, In (i, x) vs -> is_a_name x) ->
  used false (new_printer (with_variables vs (env_names e))) p ->
  readable_variables vs t (snd (print_type t p)) ->
  exists t', annotation e (fst (print_type t p)) = Some t' /\ alike t t'.
Proof. apply reads_back. Qed.
Print Assumptions C81_printed_types_read_back_partial.

Definition the_statements : list statement :=
  [Import_ (str "a/thing") (Some (str "thing")) [];
   Import_ (str "b/thing") (Some (str "other")) [(str "Thing", Some (str "Item"))];
   Import_ (str "lib/api") (Some (str "api")) [];
   CustomType (str "Box") [7%N] true;
   Alias_ (str "Number") [] (Named prelude (str "Int") []) true true].
Definition the_type : type :=
  TFn [Named prelude (str "List") [Named prelude (str "Int") []]; Named (str "a/thing") (str "Thing") []; Var 3; Var 9]
    (Tuple [Named (str "app") (str "Box") [Var 9]; Named (str "b/thing") (str "Thing") []; secret; TFn [] (Var 5)]).
Example C81_printed :
  match analysed_types the_world (str "app") (str "app") the_statements with
  | None => False
  | Some e =>
      let '(source, _) := print_type the_type (new_printer (with_variables [(3%N, str "a")] (env_names e))) in
      source = str "fn(List(Number), thing.Thing, a, b) -> #(Box(b), Item, api.Open, fn() -> c)"
      /\ annotation e source
         = Some (rename (fun i => if (i =? 3)%N then 0 else if (i =? 9)%N then 1 else 2)%N the_type)
  end.
Proof. vm_compute. split; reflexivity. Qed.

(** Types that can be written in a module, but not the way they are printed. *)
Definition not_read_back (ss : list statement) (source : text) : Prop :=
  exists e t, Forall (sound_statement the_arity (str "app")) ss
    /\ analysed_types the_world (str "app") (str "app") ss = Some e
    /\ annotation e source = Some t
    /\ annotation e (fst (print_type t (new_printer (env_names e)))) = None.
Definition many_variables : text := str "fn(a,b,c,d,e,f,g,h,i,j,k,l,m,n,o,p,q,r,s,t,u,v,w,x,y,z,aa,ab,ac,ad,ae,af,ag,ah,ai,aj,ak,al,am,an,ao,ap,aq,ar,xx) -> xx".
Lemma not_back ss source :
  Forall (sound_statement the_arity (str "app")) ss ->
  match analysed_types the_world (str "app") (str "app") ss with
  | Some e =>
      match annotation e source with
      | Some t => annotation e (fst (print_type t (new_printer (env_names e)))) = None
      | None => False
      end
  | None => False
  end -> not_read_back ss source.
Proof.
  intros S H. unfold not_read_back. destruct (analysed_types the_world (str "app") (str "app") ss) as [e|] eqn:E; [|contradiction].
  destruct (annotation e source) as [t|] eqn:A; [|contradiction]. exists e, t. auto.
Qed.
(** The 45th name of a variable is the keyword [as]; an internal type is printed by the name of an
    alias in a module that is not imported; a type of the prelude is printed as one of the module
    [gleam] after the name it was imported by was taken. *)
Theorem C81_printed_types_read_back_refuted :
  sound_world the_arity the_world
  /\ not_read_back [] many_variables
  /\ not_read_back [Import_ (str "lib/inner") (Some (str "inner")) []] (str "inner.Secret")
  /\ not_read_back [Import_ prelude None [(str "Int", Some (str "I"))]; CustomType (str "I") [] true] (str "Int")
  (** A type that cannot be written is printed as another one. *)
  /\ exists e, analysed_types the_world (str "app") (str "app") [Import_ (str "a/thing") (Some (str "thing")) []] = Some e
       /\ annotation e (fst (print_type (Named (str "b/thing") (str "Thing") []) (new_printer (env_names e))))
          = Some (Named (str "a/thing") (str "Thing") []).
Proof.
  split; [apply the_world_sound|]. split; [|split; [|split]].
  - apply not_back; [constructor|vm_compute; reflexivity].
  - apply not_back; [|vm_compute; reflexivity]. repeat constructor; [|intros x y []]. intros u E. injection E as <-. a_name.
  - apply not_back; [|vm_compute; reflexivity]. repeat constructor; cbn; try (intros u E; discriminate E).
    + intros x y [E|[]]. injection E as <- <-. a_word.
    + a_word.
  - destruct (analysed_types the_world (str "app") (str "app") [Import_ (str "a/thing") (Some (str "thing")) []]) as [e|] eqn:E;
      [|vm_compute in E; discriminate E]. exists e. split; [reflexivity|]. vm_compute in E. injection E as <-. vm_compute. reflexivity.
Qed.
Print Assumptions C81_printed_types_read_back_refuted.

(** ** Names of type variables *)

(** A name the programmer gave is used, a variable keeps its name, and no two variables without names
    get one name, whatever is done with the printer. *)
Theorem C82_variables_keep_one_name ns vs p0 p i :
  type_variables ns = [] ->
  (p0 = new_printer (with_variables vs ns) \/ p0 = new_without_type_variables (with_variables vs ns)) ->
  used true p0 p ->
  let '(x, p') := type_variable i p in
  (forall y, given_name vs i = Some y -> x = y)
  /\ forall q, used true p' q ->
       fst (type_variable i q) = x
       /\ forall j, given_name vs i = None -> given_name vs j = None -> j <> i -> fst (type_variable j q) <> x.
Proof.
  intros E P0 U. assert (G0 : good (fun _ => False) (with_variables vs ns) p0).
  { destruct P0 as [->| ->]; [eapply good_weaken, new_printer_good|apply new_without_good]. }
  destruct (used_anyhow _ _ _ G0 U) as [G _]. pose proof (variable_step _ _ i p G) as V.
  destruct (type_variable i p) as [x p']. destruct V as [G' [_ [V _]]]. split.
  - intros y Y. unfold name_of in V. rewrite (g_names _ _ _ G'), given_list_inv, Y in V by auto. congruence.
  - intros q Q. destruct (used_anyhow _ _ _ G' Q) as [Gq Lq]. pose proof (Lq _ _ V) as W.
    split; [now rewrite (name_of_variable _ _ _ W)|]. intros j Ni Nj D Eq.
    pose proof (variable_step _ _ j q Gq) as Vj. destruct (type_variable j q) as [y q']. destruct Vj as [Gq' [Lj [Vj _]]].
    cbn [fst] in Eq. subst y. apply (l_name_of _ _ Lj) in W. unfold name_of in W, Vj.
    rewrite (g_names _ _ _ Gq'), given_list_inv, Ni in W by auto. rewrite (g_names _ _ _ Gq'), given_list_inv, Nj in Vj by auto.
    apply D. eapply (g_one _ _ _ Gq'); eauto.
Qed.
Print Assumptions C82_variables_keep_one_name.

(** A variable without a name gets the first word of lowercase letters that is not taken: given by
    the programmer, registered, or the name of a variable printed before. *)
Theorem C82_new_names_are_the_first_free ns vs p i :
  type_variables ns = [] ->
  used false (new_printer (with_variables vs ns)) p -> unnamed vs p i ->
  let x := fst (type_variable i p) in
  let taken y :=
    (exists j, given_name vs j = Some y)
    \/ (exists q, used false (new_printer (with_variables vs ns)) q /\ used false (register_type_variable y q) p)
    \/ (exists j, type_variable j p = (y, p)) in
  lowercase x /\ ~ taken x /\ forall y, lowercase y -> precedes y x -> taken y.
Proof.
  intros E U N x taken. set (ns' := with_variables vs ns) in *. destruct (new_printer_good ns') as [G0 D0].
  destruct (used_later _ _ _ _ G0 U) as [G L]. pose proof (unnamed_none vs ns p i E (g_names _ _ _ G) N) as None_.
  pose proof (variable_step _ _ i p G) as V. fold x in V. unfold x in *. destruct (type_variable i p) as [z p'] eqn:Ep. cbn [fst] in *.
  destruct V as [_ [_ [_ V]]]. destruct (V None_) as [Lz [Nz Dz]]. split; [auto|]. split.
  - intros [[j J]|[[q [Q R]]|[j J]]]; apply Nz.
    + apply (g_scope _ _ _ G). exists j. unfold ns'. now rewrite given_list_inv.
    + destruct (used_later _ _ _ _ G0 Q) as [Gq _]. destruct (register_step _ _ z q Gq) as [Gr _].
      destruct (used_later _ _ _ _ Gr R) as [_ Lr]. apply (l_taken _ _ Lr). now left.
    + pose proof (variable_step _ _ j p G) as W. rewrite J in W. destruct W as [_ [_ [W Wn]]].
      destruct (name_of p j) as [u|] eqn:Ej; [|congruence]. injection W as ->.
      eapply name_is_taken; eauto. now apply (l_dense _ _ L).
  - intros y Ly Py. assert (I : In y (TypePrinterNamesProofs.taken p)) by (apply Dz; auto; now apply (l_dense _ _ L)).
    assert (A : accounts (new_printer ns') (fun y => exists j, given_name vs j = Some y) p).
    { eapply used_accounts; eauto. intros u Hu. unfold TypePrinterNamesProofs.taken in Hu.
      cbn [new_printer printed_type_variable_names] in Hu.
      apply in_map_iff in Hu as [[j u'] [<- I']]. exists j. unfold ns' in I'. eapply given_any; eauto. }
    destruct (A y I) as [H|[H|[j J]]]; [left; auto|right; left; auto|]. right. right. exists j. now apply name_of_variable.
Qed.
Print Assumptions C82_new_names_are_the_first_free.
Example C82_names :
  let p := register_type_variable (str "b") (new_printer (with_variables [(7%N, str "a"); (8%N, str "d")] new_names)) in
  fst (print_type (Tuple [Var 1; Var 7; Var 2; Var 1; Var 8; Var 3]) p) = str "#(c, a, e, c, d, f)".
Proof. vm_compute. reflexivity. Qed.
Example C82_words : map letter [0; 25; 26; 51; 52; 701; 702]%N = map str ["a"; "z"; "aa"; "az"; "ba"; "zz"; "aaa"]%string.
Proof. vm_compute. reflexivity. Qed.

(** ** Types in full *)

(** Without aliases a type is printed by its own name, in the module it is of: the name that module
    was imported by, or the end of its name. *)
Theorem C83_types_without_aliases w module package ss e vs p t :
  analysed_types w module package ss = Some e ->
  used true (new_printer (with_variables vs (env_names e))) p ->
  let '(source, p') := print_type_without_aliases t p in
  let written m n q x :=
    x = n /\ match imported_as ss m with
             | Some u => q = Some u
             | None => exists s, last_part m s /\ q = Some s
             end in
  (forall m n q x, mentions m n t -> written m n (Some q) x -> is_a_name q /\ is_a_type_name n) ->
  (forall i, In i (variables t) -> is_a_name (fst (type_variable i p'))) ->
  exists a, read_type source = Some a /\ stands_for written (fun i => fst (type_variable i p')) t a.
Proof.
  intros A U. destruct (print_type_without_aliases t p) as [source p'] eqn:P. cbn zeta. intros Wn Vn.
  set (ns := with_variables vs (env_names e)) in *.
  destruct (used_anyhow _ _ _ (good_weaken _ _ _ (proj1 (new_printer_good ns))) U) as [G _].
  pose proof (type_printed _ ns ExpandAliases t p G) as T. unfold print_type_without_aliases in P. rewrite P in T.
  destruct T as [G' [L [N T]]]. cbn [flat_map] in N, T. rewrite app_nil_r in N, T.
  rewrite (T (shown p')) by (intros i Hi; apply shown_name; auto).
  assert (Q : forall m n, name_itself (by_mode ns ExpandAliases m n) = n
    /\ match imported_as ss m with
       | Some u => name_module (by_mode ns ExpandAliases m n) = Some u
       | None => exists s, last_part m s /\ name_module (by_mode ns ExpandAliases m n) = Some s
       end).
  { intros m n. unfold ns. rewrite by_mode_with. unfold by_mode, named_type. rewrite (imported_as_spec _ _ _ _ _ m A).
    destruct (imported_as ss m) as [u|]; cbn; [auto|]. split; [reflexivity|]. exists (last_segment m). split; [apply last_segment_last|reflexivity]. }
  exists (ast (by_mode ns ExpandAliases) (shown p') t). split.
  - apply pieces_read. split; [|auto]. intros m n M. destruct (Q m n) as [Q1 Q2]. split.
    + rewrite Q1. destruct (name_module (by_mode ns ExpandAliases m n)) as [q|] eqn:Eq.
      * eapply (Wn m n q n M). split; [reflexivity|]. destruct (imported_as ss m); auto.
      * exfalso. destruct (imported_as ss m); [discriminate|]. destruct Q2 as [s [_ Q2]]. discriminate.
    + intros u Eu. eapply (Wn m n u n M). rewrite Eu in Q2. split; auto.
  - apply ast_stands. intros m n M. apply Q.
Qed.
Print Assumptions C83_types_without_aliases.
Example C83_in_full :
  match analysed_types the_world (str "app") (str "app") the_statements with
  | None => False
  | Some e =>
      fst (print_type_without_aliases the_type (new_printer (with_variables [(3%N, str "a")] (env_names e))))
      = str "fn(gleam.List(gleam.Int), thing.Thing, a, b) -> #(app.Box(b), other.Thing, inner.Secret, fn() -> c)"
  end.
Proof. vm_compute. reflexivity. Qed.

(** ** Constructors *)

(** A constructor is printed by the name it has in the module; if it has none, in its module, by the
    name of that.  A module is printed by the name it was imported by, or the end of its own. *)
Theorem C84_constructors l p m n :
  used true (new_printer (name_all l new_names)) p ->
  (forall a, locally_named l m n a -> print_constructor m n p = a)
  /\ ((forall a, ~ locally_named l m n a) ->
      (forall u, module_named l m u -> print_constructor m n p = u ++ str "." ++ n)
      /\ ((forall u, ~ module_named l m u) ->
          exists s, last_part m s /\ print_constructor m n p = s ++ str "." ++ n))
  /\ (forall u, module_named l m u -> print_module m p = u)
  /\ ((forall u, ~ module_named l m u) -> last_part m (print_module m p)).
Proof.
  intros U. destruct (used_anyhow _ _ _ (good_weaken _ _ _ (proj1 (new_printer_good (name_all l new_names)))) U) as [G _].
  unfold print_constructor, named_constructor, print_module. rewrite (g_names _ _ _ G). split; [|split; [intros N; split|split]].
  - intros a L. now rewrite (named_local _ _ _ _ L).
  - intros u M. rewrite (not_named_local _ _ _ N). apply module_named_spec in M. now rewrite M.
  - intros M. rewrite (not_named_local _ _ _ N). destruct (get text_eqb m (imported_modules (name_all l new_names))) as [u|] eqn:E.
    + exfalso. apply module_named_spec in E. now apply M in E.
    + exists (last_segment m). split; [apply last_segment_last|reflexivity].
  - intros u M. apply module_named_spec in M. now rewrite M.
  - intros M. destruct (get text_eqb m (imported_modules (name_all l new_names))) as [u|] eqn:E; [|apply last_segment_last].
    exfalso. apply module_named_spec in E. now apply M in E.
Qed.
Print Assumptions C84_constructors.
Example C84_names :
  let p := new_printer (name_all
    [ConstructorNamed (str "a/b") (str "Ok") (str "Fine"); ConstructorNamed (str "app") (str "Fine") (str "Fine");
     ConstructorNamed (str "a/b") (str "Bad") (str "Bad"); ModuleNamed (str "a/b") (str "x")] new_names) in
  map (fun c => print_constructor (str (fst c)) (str (snd c)) p)
    [("a/b", "Ok"); ("app", "Fine"); ("a/b", "Bad"); ("c/d", "Bad")]%string
  = map str ["x.Ok"; "Fine"; "Bad"; "d.Bad"]%string.
Proof. vm_compute. reflexivity. Qed.
