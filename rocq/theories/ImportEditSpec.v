(** How imports are read, for C115.  Nothing here uses the model of the language server. *)
From Coq Require Import String Arith NArith List Bool.
From Verif Require Import Text.
Import ListNotations.
Local Open Scope list_scope.

(** Names and keywords, and other characters. *)
Inductive token := Word (w : text) | Sign (c : N).
Definition word_char (c : N) : bool := is_alphanumeric c || N.eqb c 95.
Definition space (c : N) : bool := N.eqb c 32 || N.eqb c 10 || N.eqb c 13 || N.eqb c 9.
Definition ended (w : text) : list token := match w with [] => [] | _ => [Word w] end.
(** Without comments; [w] is the word read so far. *)
Fixpoint words_from (w s : text) : list token :=
  match s with
  | [] => ended w
  | c :: s => if word_char c then words_from (w ++ [c]) s
              else ended w ++ (if space c then [] else [Sign c]) ++ words_from [] s
  end.
(** A comment goes from two slashes to the end of the line. *)
Fixpoint without_comments (inside : bool) (s : text) : text :=
  match s with
  | [] => []
  | c :: s =>
      if inside then if N.eqb c 10 then c :: without_comments false s else without_comments true s
      else if N.eqb c 47 && match s with d :: _ => N.eqb d 47 | [] => false end then without_comments true s
      else c :: without_comments false s
  end.
Definition tokens (s : text) : list token := words_from [] (without_comments false s).
(** Two slashes somewhere. *)
Fixpoint has_comment (s : text) : bool :=
  match s with c :: s => (N.eqb c 47 && match s with d :: _ => N.eqb d 47 | [] => false end) || has_comment s | [] => false end.

(** parse.rs:3133-3237: an import has a module, items in braces (each a name, [type] a name, or one of them [as] another name), maybe with a
    comma behind the last, and maybe another name of the module. *)
Record an_import := AnImport { module : list text; items : option (list (list text) * bool); alias : option text }.
Definition keyword_as := str "as".
Fixpoint segments (m : list text) : list token :=
  match m with [] => [] | [s] => [Word s] | s :: m => Word s :: Sign 47 :: segments m end.
Fixpoint listed (l : list (list text)) : list token :=
  match l with [] => [] | [i] => map Word i | i :: l => map Word i ++ Sign 44 :: listed l end.
Definition braces (i : list (list text) * bool) : list token :=
  [Sign 46; Sign 123] ++ listed (fst i) ++ (if snd i then [Sign 44] else []) ++ [Sign 125].
Definition written (i : an_import) : list token :=
  Word (str "import") :: segments (module i)
  ++ match items i with Some l => braces l | None => [] end
  ++ match alias i with Some a => [Word keyword_as; Word a] | None => [] end.
Definition item_list (i : an_import) : list (list text) := match items i with Some (l, _) => l | None => [] end.
(** What the grammar allows: a module has a name, [as] is not a name, there is no empty item and no comma without an item. *)
Definition grammatical (i : an_import) : Prop :=
  module i <> [] /\ ~ In keyword_as (module i) /\ alias i <> Some keyword_as
  /\ match items i with Some (l, comma) => Forall (fun i => i <> []) l /\ (l = [] -> comma = false) | None => True end.
(** [s] is the text of an import. *)
Definition reads (s : text) (i : an_import) : Prop := grammatical i /\ tokens s = written i.
(** The same import with one item more. *)
Definition adds (i i' : an_import) (item : list text) : Prop :=
  module i' = module i /\ alias i' = alias i /\ item_list i' = item_list i ++ [item].
(** An item that can be added. *)
Definition an_item (name : text) (item : list text) : Prop :=
  item <> [] /\ has_comment name = false /\ tokens name = map Word item.
Definition has (s p : text) : Prop := exists a b, s = a ++ p ++ b.
