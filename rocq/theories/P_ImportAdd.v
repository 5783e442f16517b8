(** Adding an import to a module in the editor (C116). *)
From Coq Require Import String Arith NArith List Bool Permutation Lia.
From Verif Require Import Text ImportAdd ImportAddSpec ImportAddProofs.
Import ListNotations.
Local Open Scope list_scope.
Local Open Scope nat_scope.

Definition new_import (name gap : text) : part := Part [] true (str "import " ++ name) gap.

(** In front of the first import, if that is the first definition. *)
Theorem C116_before_the_first_import_partial d head parts name : located d head parts -> first_is_import parts ->
  (forall p rest, parts = p :: rest -> attributes p = []) ->
  edited (source head parts) (add_import d (source head parts) name) = source head (new_import name [10%N] :: parts).
Proof.
  intros L (p & rest & -> & K) A. specialize (A p rest eq_refl). unfold add_import. rewrite (position_import d head p rest L K).
  rewrite A. cbn [length]. rewrite Nat.add_0_r. unfold add_newlines_after_import, get_import_edit, edited, source. cbn [negb andb fst snd].
  rewrite firstn_app, skipn_app, Nat.sub_diag, firstn_all, skipn_all. cbn [firstn skipn app]. rewrite app_nil_r.
  unfold new_import. cbn [map concat]. unfold text_of at 3. cbn [attributes body gap app]. rewrite <- ?app_assoc. reflexivity.
Qed.
Print Assumptions C116_before_the_first_import_partial.

(** At the start of the module otherwise, with an empty line behind it. *)
Theorem C116_at_the_start d head parts name : located d head parts -> ~ first_is_import parts ->
  exists gap, edited (source head parts) (add_import d (source head parts) name) = source [] (new_import name gap :: parts)
    /\ (exists rest, gap ++ concat (map text_of parts) = [10%N; 10%N] ++ rest)
    /\ (gap = [10%N] ++ head \/ gap = [10%N; 10%N] ++ head).
Proof.
  intros L N. unfold add_import. rewrite (position_other d head parts L N). unfold add_newlines_after_import, get_import_edit, edited, source.
  cbn [negb andb fst snd firstn skipn app]. set (rest := concat (map text_of parts)).
  assert (forall g, (str "import " ++ name ++ g) ++ head ++ rest = concat (map text_of (new_import name (g ++ head) :: parts))) as E.
  { intro g. unfold new_import. cbn [map concat]. unfold text_of at 1. cbn [attributes body gap app]. rewrite <- ?app_assoc. reflexivity. }
  destruct (nth_error (head ++ rest) 0) as [c|] eqn:F; [destruct (N.eqb_spec c 10) as [->|_]|]; cbn [negb].
  - exists ([10%N] ++ head). split; [apply E|]. split; [|left; reflexivity].
    destruct (head ++ rest) as [|x r] eqn:R; [discriminate F|]. cbn in F. injection F as ->. exists r. rewrite <- app_assoc, R. reflexivity.
  - exists ([10%N; 10%N] ++ head). split; [apply E|]. split; [exists (head ++ rest); rewrite <- app_assoc; reflexivity|right; reflexivity].
  - exists ([10%N; 10%N] ++ head). split; [apply E|]. split; [exists (head ++ rest); rewrite <- app_assoc; reflexivity|right; reflexivity].
Qed.
Print Assumptions C116_at_the_start.

(** [@target(javascript)] before the first import: it becomes an attribute of the new import. *)
Definition targeted : part := Part (str "@target(javascript)" ++ [10%N]) true (str "import promise") [10%N].
Definition targeted_location : definitions := Definitions [(20, 34)] [] [] [] [].
Theorem C116_attributes_refuted : exists d parts name, located d [] parts /\ first_is_import parts
  /\ edited (source [] parts) (add_import d (source [] parts) name)
     = str "@target(javascript)" ++ [10%N] ++ str "import list" ++ [10%N] ++ str "import promise" ++ [10%N]
  /\ forall head gap, edited (source [] parts) (add_import d (source [] parts) name) <> source head (new_import name gap :: parts).
Proof.
  exists targeted_location, [targeted], (str "list"). split.
  { split; [repeat constructor; discriminate|]. split; vm_compute; repeat constructor. }
  split; [exists targeted, []; split; reflexivity|]. split; [vm_compute; reflexivity|].
  intros head g E. unfold source in E at 3. cbn [map concat] in E. rewrite app_nil_r in E.
  unfold text_of at 1 in E. rewrite <- ?app_assoc in E. rewrite !app_assoc in E.
  apply (f_equal (@rev N)) in E. unfold targeted, text_of in E. cbn [attributes body gap] in E. rewrite !rev_app_distr in E. vm_compute in E. discriminate E.
Qed.
Print Assumptions C116_attributes_refuted.

Definition a_function : part := Part [] false (str "pub fn main() { 1 }") [10%N].
Definition an_old_import : part := Part [] true (str "import gleam/io") [10%N; 10%N].
Example two_modules :
  (let parts := [an_old_import; a_function] in
   let d := Definitions [(9, 24)] [] [] [] [(26, 45)] in
   located d (str "// Hello" ++ [10%N]) parts
   /\ edited (source (str "// Hello" ++ [10%N]) parts) (add_import d (source (str "// Hello" ++ [10%N]) parts) (str "list"))
      = str "// Hello" ++ [10%N] ++ str "import list" ++ [10%N] ++ str "import gleam/io" ++ [10%N; 10%N] ++ str "pub fn main() { 1 }" ++ [10%N])
  /\ (let parts := [a_function; an_old_import] in
      let d := Definitions [(20, 35)] [] [] [] [(0, 19)] in
      located d [] parts
      /\ edited (source [] parts) (add_import d (source [] parts) (str "list"))
         = str "import list" ++ [10%N; 10%N] ++ str "pub fn main() { 1 }" ++ [10%N] ++ str "import gleam/io" ++ [10%N; 10%N]).
Proof.
  split; (split; [split; [repeat constructor; discriminate|split; vm_compute; repeat constructor]|vm_compute; reflexivity]).
Qed.
