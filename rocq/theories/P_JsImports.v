(** The imports and exports of a generated JavaScript module (C108, C109, C110). *)
From Coq Require Import String Arith NArith List Bool Permutation Lia.
From Coq Require Import ZifyBool ZifyNat ZifyN.
From Verif Require Import Text TextProofs JsScope ManifestText ManifestTextSpec ManifestTextProofs JsImports JsImportsSpec JsImportsProofs JsImportsMain.
Import ListNotations.
Local Open Scope list_scope.

(** ** C108: paths *)
Theorem C108_paths_lead_to_the_module m pkg module :
  lower_name (package m) -> module_name (name m) -> pkg = [] \/ lower_name pkg -> module_name module ->
  finds m (import_path m pkg module) pkg module.
Proof. apply import_path_finds. Qed.
Print Assumptions C108_paths_lead_to_the_module.

Theorem C108_a_path_is_of_one_module m a b c d :
  lower_name (package m) -> module_name (name m) -> lower_name a -> lower_name c -> module_name b -> module_name d ->
  import_path m a b = import_path m c d -> a = c /\ b = d.
Proof.
  intros P N A C B D E. pose proof (import_path_finds m a b P N (or_intror A) B) as F. rewrite E in F.
  destruct (finds_same m _ _ _ _ _ B D F (import_path_finds m c d P N (or_intror C) D)) as (O & Q). split; [|exact Q].
  unfold owner in O. apply lower_name_not in A as (A & _). apply lower_name_not in C as (C & _). destruct a, c; congruence.
Qed.
Print Assumptions C108_a_path_is_of_one_module.

Definition small (pkg n : string) := GleamModule (str pkg) (str n) [] [] [] [] [] false.
Example paths :
  (import_path (small "wibble" "main") (str "wibble") (str "a/b") = str "./a/b.mjs"
   /\ import_path (small "wibble" "one/two/three") (str "wibble") (str "a/b") = str "../../a/b.mjs"
   /\ import_path (small "wibble" "one/two/three") (str "gleam_stdlib") (str "gleam/list") = str "../../../gleam_stdlib/gleam/list.mjs"
   /\ import_path (small "wibble" "main") (str "gleam_stdlib") (str "gleam/list") = str "../gleam_stdlib/gleam/list.mjs"
   /\ import_path (small "wibble" "one/two") [] (str "gleam") = str "../gleam.mjs")%string.
Proof. vm_compute. repeat split. Qed.

(** ** C109: names *)
Theorem C109_names_are_bound_partial m l : checked m -> imported_once m -> compiles m l ->
  NoDup (map fst (bindings l))
  /\ (forall n p e, In (n, (p, e)) (bindings l) -> exists w, declares m n e w /\ at_place m p w)
  /\ (forall n e w, declares m n e w -> exists p, at_place m p w /\ In (n, (p, e)) (bindings l)).
Proof.
  intros ok once (cs & order & ->). pose proof (compiled m ok cs order once) as P. split; [|split].
  - eapply Permutation_NoDup; [apply Permutation_map, Permutation_sym, P|]. exact (remaining_distinct m ok cs order).
  - intros n p e I. apply (bound_declared m ok cs order). exact (Permutation_in _ P I).
  - intros n e w D. destruct (declared_bound m ok cs order once n e w D) as (p & A & I). exists p. split; [exact A|].
    exact (Permutation_in _ (Permutation_sym P) I).
Qed.
Print Assumptions C109_names_are_bound_partial.

Theorem C109_exports m l : compiles m l -> NoDup (exported l)
  /\ forall n, In n (exported l) <-> exists e, In e (externals m) /\ public e = true /\ js_name (function e) n.
Proof. intros (cs & _ & ->). split; [apply exports_distinct|intro n; apply exports_In]. Qed.
Print Assumptions C109_exports.

Local Ltac name := first [apply lower_nameb_ok; reflexivity | apply upper_nameb_ok; reflexivity
  | left; apply lower_nameb_ok; reflexivity | right; apply upper_nameb_ok; reflexivity].
Local Ltac distinct := apply distinct_NoDup; vm_compute; reflexivity.
Local Ltac elsewhere := let d := fresh in let w := fresh in let f := fresh in
  intros (_ & d & w & f & (? & S1 & ->) & S2 & (? & S3 & ->) & E); apply splits_components in S1, S2, S3; subst; vm_compute in E; discriminate E.

(** [import option.{None, None as Nothing}]. *)
Definition none := Variant (str "wibble") (str "option") (str "Option") (str "None").
Definition imported_twice : gleam_module :=
  GleamModule (str "wibble") (str "main")
    [GleamImport (str "wibble") (str "option") None [(str "None", None); (str "None", Some (str "Nothing"))]]
    [] [] [(none, str "None"); (none, str "Nothing")] [] false.
Lemma imported_twice_checked : checked imported_twice.
Proof.
  split; cbn [package name imported externals prelude_used constants_used].
  - name.
  - constructor. name.
  - constructor; [|constructor]. split; [right; name|]. split; [constructor; name|]. split; [exact I|]. constructor; [|constructor; [|constructor]]; (split; [|cbn; try exact I]; name).
  - constructor.
  - distinct.
  - distinct.
  - intros n [].
  - intros v u [E|[E|[]]]; injection E as <- <-; (split; [name|split; [name|split; [name|split; [discriminate|]]]]);
      [exists (GleamImport (str "wibble") (str "option") None [(str "None", None); (str "None", Some (str "Nothing"))]), (str "None", None)
      |exists (GleamImport (str "wibble") (str "option") None [(str "None", None); (str "None", Some (str "Nothing"))]), (str "None", Some (str "Nothing"))];
      cbn; auto 10.
  - intros v u w y [E|[E|[]]] [F|[F|[]]]; injection E as <- <-; injection F as <- <-; reflexivity.
  - intros e g [].
Qed.
(** Only the last of the names is bound. *)
Theorem C109_names_are_bound_refuted : exists m l n e w,
  checked m /\ compiles m l /\ declares m n e w /\ ~ In n (map fst (bindings l)).
Proof.
  exists imported_twice, (compile imported_twice (variant_constants_used imported_twice)), (str "Option$None$const"), (Some (str "Option$None$const")),
    (OfModule (str "wibble") (str "option")).
  split; [apply imported_twice_checked|]. split; [exists (variant_constants_used imported_twice); split; reflexivity|].
  split; [exact (a_constant imported_twice none (str "None") (or_introl eq_refl))|].
  vm_compute. intuition discriminate.
Qed.
Print Assumptions C109_names_are_bound_refuted.

(** [import option.{None, type Option, Some as Just}], [import gleam/list as lists], [import colour/shade.{Dark, default}], and functions of
    JavaScript. *)
Definition dark := Variant (str "paint") (str "colour/shade") (str "Shade") (str "Dark").
Definition import_option := GleamImport (str "wibble") (str "option") None [(str "None", None); (str "Some", Some (str "Just"))].
Definition import_list := GleamImport (str "gleam_stdlib") (str "gleam/list") (Some (Some (str "lists"))) [].
Definition import_shade := GleamImport (str "paint") (str "colour/shade") (Some None) [(str "Dark", None); (str "default", None)].
Definition a_program : gleam_module :=
  GleamModule (str "wibble") (str "pages/home") [import_option; import_list; import_shade]
    [External true (str "new") (str "./home_ffi.mjs") (str "create"); External false (str "size") (str "./home_ffi.mjs") (str "size")]
    [str "Ok"; str "toList"; str "Empty"]
    [(none, str "None"); (dark, str "Dark"); (none, str "None")] [dark] true.
Lemma a_program_checked : checked a_program.
Proof.
  split; cbn [package name imported externals prelude_used constants_used a_program].
  - name.
  - change (str "pages/home") with (str "pages" ++ 47%N :: str "home"). apply more_segments; [|constructor]; name.
  - constructor; [|constructor; [|constructor; [|constructor]]]; (split; [right; name|split; [|split; [first [exact I | name]|repeat (apply Forall_cons; [split; [|cbn; try exact I]; name|]); apply Forall_nil]]]).
    + constructor. name.
    + change (module_name (str "gleam" ++ 47%N :: str "list")). apply more_segments; [|constructor]; name.
    + change (module_name (str "colour" ++ 47%N :: str "shade")). apply more_segments; [|constructor]; name.
  - repeat constructor; name.
  - distinct.
  - distinct.
  - intros n _ [<-|[<-|[]]]; vm_compute; intuition discriminate.
  - intros v u [E|[E|[E|[]]]]; injection E as <- <-; (split; [name|split; [name|split; [name|split; [discriminate|]]]]);
      [exists import_option, (str "None", None)|exists import_shade, (str "Dark", None)|exists import_option, (str "None", None)]; cbn; auto 10.
  - intros v u w y [E|[E|[E|[]]]] [F|[F|[F|[]]]]; injection E as <- <-; injection F as <- <-; auto; discriminate.
  - intros e g [<-|[<-|[]]] [<-|[<-|[<-|[]]]]; elsewhere.
Qed.
Example a_program_compiled :
  imported_once a_program /\ compile a_program (variant_constants_used a_program) =
  [ImportAll (str "$stdlib$dict") (str "../../gleam_stdlib/gleam/dict.mjs");
   ImportAll (str "$lists") (str "../../gleam_stdlib/gleam/list.mjs");
   ImportSome [Member (str "Dark") None; Member (str "default$") None; Member (str "Shade$Dark$const") None] (str "../../paint/colour/shade.mjs");
   ImportSome [Member (str "Ok") None; Member (str "toList") None; Member (str "Empty") (Some (str "$Empty"))] (str "../gleam.mjs");
   ImportAll (str "$option") (str "../option.mjs");
   ImportSome [Member (str "Some") (Some (str "Just")); Member (str "Option$None$const") None] (str "../option.mjs");
   ImportSome [Member (str "create") (Some (str "new$")); Member (str "size") None] (str "./home_ffi.mjs");
   Export [str "new$"]].
Proof.
  split; [|vm_compute; reflexivity]. unfold imported_once. apply (NoDup_map_inv (fun x => snd x)). distinct.
Qed.
Example a_program_bound : exists p, finds a_program p (str "wibble") (str "option")
  /\ In (str "Just", (p, Some (str "Some"))) (bindings (compile a_program (variant_constants_used a_program))).
Proof.
  assert (imported_once a_program) as O by apply a_program_compiled.
  destruct (C109_names_are_bound_partial a_program _ a_program_checked O (ex_intro _ _ (conj (Permutation_refl _) eq_refl))) as (_ & _ & H).
  apply (H (str "Just") (Some (str "Some")) (OfModule (str "wibble") (str "option"))).
  apply (a_value a_program import_option (str "Some", Some (str "Just"))); [left; reflexivity|right; left; reflexivity|left; split; reflexivity|left; split; reflexivity|].
  intros (v & u & [E|[E|[E|[]]]] & _ & _ & N & _); injection E as <- <-; discriminate N.
Qed.

(** ** C110: the order of tables *)
Theorem C110_order_of_tables_partial m l l' : checked m -> one_constant_each m -> compiles m l -> compiles m l' -> l = l'.
Proof.
  intros ok one (cs & P & ->) (cs' & P' & ->). apply order_ignored; [apply one_each_files; assumption|]. rewrite P, P'. reflexivity.
Qed.
Print Assumptions C110_order_of_tables_partial.

(** [import colour/shade.{Dark, Light}], with both used. *)
Definition light := Variant (str "paint") (str "shade") (str "Shade") (str "Light").
Definition dim := Variant (str "paint") (str "shade") (str "Shade") (str "Dim").
Definition import_shades := GleamImport (str "paint") (str "shade") None [(str "Light", None); (str "Dim", None)].
Definition two_constants : gleam_module :=
  GleamModule (str "wibble") (str "main") [import_shades] [] [] [(light, str "Light"); (dim, str "Dim")] [] false.
Lemma two_constants_checked : checked two_constants.
Proof.
  split; cbn [package name imported externals prelude_used constants_used two_constants].
  - name.
  - constructor. name.
  - constructor; [|constructor]. split; [right; name|]. split; [constructor; name|]. split; [exact I|]. constructor; [|constructor; [|constructor]]; (split; [|cbn; try exact I]; name).
  - constructor.
  - distinct.
  - distinct.
  - intros n [].
  - intros v u [E|[E|[]]]; injection E as <- <-; (split; [name|split; [name|split; [name|split; [discriminate|]]]]);
      [exists import_shades, (str "Light", None)|exists import_shades, (str "Dim", None)]; cbn; auto 10.
  - intros v u w y [E|[E|[]]] [F|[F|[]]]; injection E as <- <-; injection F as <- <-; auto.
  - intros e g [].
Qed.
Theorem C110_order_of_tables_refuted : exists m l l', checked m /\ imported_once m /\ compiles m l /\ compiles m l' /\ l <> l'.
Proof.
  exists two_constants, (compile two_constants [(light, None); (dim, None)]), (compile two_constants [(dim, None); (light, None)]).
  split; [apply two_constants_checked|]. split; [apply (NoDup_map_inv (fun x => snd x)); distinct|].
  split; [exists [(light, None); (dim, None)]; split; [vm_compute; reflexivity|reflexivity]|].
  split; [exists [(dim, None); (light, None)]; split; [vm_compute; apply perm_swap|reflexivity]|].
  vm_compute. discriminate.
Qed.
Print Assumptions C110_order_of_tables_refuted.
Example a_program_order : one_constant_each a_program
  /\ compile a_program [(none, None); (dark, None)] = compile a_program [(dark, None); (none, None)]
  /\ Permutation [(dark, None); (none, None)] (variant_constants_used a_program).
Proof.
  split; [|split; [vm_compute; reflexivity|vm_compute; apply perm_swap]].
  intros v u w y [E|[E|[E|[]]]] [F|[F|[F|[]]]]; injection E as <- <-; injection F as <- <-; auto; discriminate.
Qed.
