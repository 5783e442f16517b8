(** Adding a name to an import in the editor (C115). *)
From Coq Require Import String Arith NArith List Bool Lia.
From Verif Require Import Text ImportEdit ImportEditSpec ImportEditProofs ImportEditMain.
Import ListNotations.
Local Open Scope list_scope.
Local Open Scope nat_scope.

Definition aliased (i : an_import) : bool := match alias i with Some _ => true | None => false end.
(** The text of a module with [new] inserted at [pos]. *)
Definition edited (code : text) (pos : nat) (new : text) : text := firstn pos code ++ new ++ skipn pos code.

Theorem C115_the_item_is_added_partial before s after i name item :
  reads s i -> has_comment s = false -> (items i = None -> alias i <> None -> has s (str " as ")) -> an_item name item ->
  exists pos new s' i',
    insert_unqualified_import (aliased i) (length before) (length before + length s) (before ++ s ++ after) name = Some (pos, new)
    /\ edited (before ++ s ++ after) pos new = before ++ s' ++ after /\ reads s' i' /\ adds i i' item.
Proof.
  intros (G & R) H As A. unfold tokens in R. rewrite no_comment in R by exact H. unfold insert_unqualified_import. rewrite slice_import.
  assert (result (length before) (if existsb (N.eqb 125) s then insert_into_braced_import name (length before) s
    else insert_into_unbraced_import name (aliased i) (length before) (length before + length s) s) s i item) as Q.
  { destruct (items i) as [(l & comma)|] eqn:I.
    - destruct (braced (length before) s l comma i name item G I R H A) as (-> & Q). exact Q.
    - destruct (unbraced (length before) s i name item G I R H (As eq_refl) A) as (-> & Q). exact Q. }
  destruct Q as (u & v & new & i' & -> & -> & H' & R' & G' & Ad). exists (length before + length u), new, (u ++ new ++ v), i'.
  split; [reflexivity|]. split; [apply inserted|]. split; [|exact Ad]. split; [exact G'|]. unfold tokens. rewrite no_comment by exact H'. exact R'.
Qed.
Print Assumptions C115_the_item_is_added_partial.

Definition newline : text := [10%N].
(** A comment behind the last item: the new item becomes part of it. *)
Definition commented := str "import shapes.{" ++ newline ++ str "  Circle // round" ++ newline ++ str "}".
Theorem C115_comments_refuted : exists s i name item pos new, reads s i /\ an_item name item
  /\ insert_unqualified_import (aliased i) 0 (length s) s name = Some (pos, new)
  /\ forall i', adds i i' item -> ~ reads (edited s pos new) i'.
Proof.
  exists commented, (AnImport [str "shapes"] (Some ([[str "Circle"]], false)) None), (str "Square"), [str "Square"], 33, (str ", Square").
  split.
  { split; [|vm_compute; reflexivity]. split; [discriminate|]. split; [intros [E|[]]; discriminate E|]. split; [discriminate|].
    split; [repeat constructor; discriminate|discriminate]. }
  split; [split; [discriminate|split; vm_compute; reflexivity]|]. split; [vm_compute; reflexivity|].
  intros i' (M & L & I) (_ & E). unfold item_list in I. cbn [items app] in I.
  assert (In (Word (str "Square")) (tokens (edited commented 33 (str ", Square")))) as J.
  { rewrite E. unfold written. right. rewrite !in_app_iff. right. left. destruct (items i') as [(l & comma)|]; [|discriminate I]. subst l.
    unfold braces. rewrite !in_app_iff. right. left. cbn. auto. }
  vm_compute in J. intuition discriminate.
Qed.
Print Assumptions C115_comments_refuted.

(** A line break before [as]: the language server panics. *)
Definition broken := str "import shapes" ++ newline ++ str "  as forms".
Definition broken_before := str "import shapes" ++ newline ++ str "as forms".
Theorem C115_line_breaks_refuted : exists s i name item, reads s i /\ an_item name item /\ has_comment s = false
  /\ insert_unqualified_import (aliased i) 0 (length s) s name = None.
Proof.
  exists broken_before, (AnImport [str "shapes"] None (Some (str "forms"))), (str "Square"), [str "Square"].
  split.
  { split; [|vm_compute; reflexivity]. split; [discriminate|]. split; [intros [E|[]]; discriminate E|]. split; [discriminate|exact I]. }
  split; [split; [discriminate|split; vm_compute; reflexivity]|]. split; vm_compute; reflexivity.
Qed.
Print Assumptions C115_line_breaks_refuted.

(** Six ways to write an import, in a module with something before and after. *)
Definition after_edit (s : text) (a : bool) (name : text) : option text :=
  let before := str "pub const a = 1" ++ newline in
  let code := before ++ s ++ newline ++ str "pub const b = 2" in
  match insert_unqualified_import a (length before) (length before + length s) code name with
  | Some (pos, new) => Some (firstn (length s + length new) (skipn (length before) (edited code pos new)))
  | None => None
  end.
Example six_imports :
  (after_edit (str "import a/b") false (str "Wibble") = Some (str "import a/b.{Wibble}")
   /\ after_edit (str "import a/b as c") true (str "type Wibble") = Some (str "import a/b.{type Wibble} as c")
   /\ after_edit broken true (str "Wibble") = Some (str "import shapes.{Wibble}" ++ newline ++ str "  as forms")
   /\ after_edit (str "import a.{}") false (str "Wibble") = Some (str "import a.{Wibble}")
   /\ after_edit (str "import a.{ b, type C as D } as e") true (str "Wibble") = Some (str "import a.{ b, type C as D, Wibble } as e")
   /\ after_edit (str "import a.{" ++ newline ++ str "  b," ++ newline ++ str "}") false (str "Wibble")
      = Some (str "import a.{" ++ newline ++ str "  b, Wibble" ++ newline ++ str "}")).
Proof. vm_compute. repeat split. Qed.
Example an_import_read :
  reads (str "import a.{ b, type C as D, } as e") (AnImport [str "a"] (Some ([[str "b"]; [str "type"; str "C"; str "as"; str "D"]], true)) (Some (str "e")))
  /\ an_item (str "type Wibble") [str "type"; str "Wibble"].
Proof.
  split.
  - split; [|vm_compute; reflexivity]. split; [discriminate|]. split; [intros [E|[]]; discriminate E|]. split; [discriminate|].
    split; [repeat constructor; discriminate|discriminate].
  - split; [discriminate|]. split; vm_compute; reflexivity.
Qed.
