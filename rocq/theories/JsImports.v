(** The imports and exports of a generated JavaScript module: compiler-core/src/javascript/import.rs and
    the parts of compiler-core/src/javascript.rs that fill them in.

    The result is the list of statements; how they are laid out in lines is left out. Which parts of the
    prelude the code uses, which constants of variants it refers to and which variants it tests for are
    taken as given (the [UsageTracker], javascript.rs:1563-1600): the generation of the code is in
    other models. Documents are their text. TypeScript declarations are not modelled. *)
From Coq Require Import String NArith List Bool.
From Verif Require Import Text JsScope ManifestText.
Import ListNotations.
Local Open Scope list_scope.

(** ** Imports, import.rs *)

(** import.rs:187-191 *)
Record member := Member { member_name : text; alias : option text }.
(** import.rs:117-121. A set is the list of what was put into it. *)
Record import := Import { path : text; aliases : list text; unqualified : list member }.
(** import.rs:16-20 *)
Record imports := Imports { modules : list (text * import); exports : list text }.

(** import.rs:26-28 *)
Definition register_export (i : imports) (name : text) : imports := Imports (modules i) (exports i ++ [name]).

Fixpoint entry (p : text) (f : import -> import) (l : list (text * import)) : list (text * import) :=
  match l with
  | [] => [(p, f (Import p [] []))]
  | (q, i) :: l => if text_eqb q p then (q, f i) :: l else (q, i) :: entry p f l
  end.
(** import.rs:30-42 *)
Definition register_module (i : imports) (p : text) (as_ : list text) (members : list member) : imports :=
  Imports (entry p (fun i => Import (path i) (aliases i ++ as_) (unqualified i ++ members)) (modules i)) (exports i).

(** [iter().position] and [remove] *)
Fixpoint remove_first (n : text) (l : list member) : list member :=
  match l with [] => [] | m :: l => if text_eqb (member_name m) n then l else m :: remove_first n l end.
Fixpoint get_mut (p : text) (f : import -> import) (l : list (text * import)) : list (text * import) :=
  match l with
  | [] => []
  | (q, i) :: l => if text_eqb q p then (q, f i) :: l else (q, i) :: get_mut p f l
  end.
(** import.rs:99-114 *)
Definition filter_unused_variants (i : imports) (unused : list (text * text)) : imports :=
  fold_left (fun i '(p, n) =>
    Imports (get_mut p (fun i => Import (path i) (aliases i) (remove_first n (unqualified i))) (modules i)) (exports i))
    unused i.

(** The statements of JavaScript: [import * as a from "p";], [import { m, n as a } from "p";] and
    [export { a, b };] *)
Inductive statement := ImportAll (a p : text) | ImportSome (l : list member) (p : text) | Export (l : list text).

Fixpoint set_of (l : list text) : list text :=
  match l with [] => [] | x :: l => if existsb (text_eqb x) l then set_of l else x :: set_of l end.
Definition sorted (l : list text) : list text := sorted_by (fun s => s) (set_of l).
(** import.rs:132-184 *)
Definition import_into_doc (i : import) : list statement :=
  map (fun a => ImportAll a (path i)) (sorted (aliases i))
  ++ match unqualified i with [] => [] | l => [ImportSome l (path i)] end.
(** import.rs:44-90 *)
Definition into_doc (i : imports) : list statement :=
  flat_map import_into_doc (sorted_by path (map snd (modules i)))
  ++ match exports i with [] => [] | l => [Export (sorted l)] end.

(** ** The Gleam module *)

(** [as_name]: [Some None] is a discarded name. *)
Record gleam_import := GleamImport {
  from_package : text; from_module : text; as_name : option (option text); values : list (text * option text) }.
Record external := External { public : bool; function : text; js_module : text; js_function : text }.
(** javascript.rs:1603-1608 [TypeVariant] *)
Record variant := Variant { v_package : text; v_module : text; v_type : text; v_name : text }.
Record gleam_module := GleamModule {
  package : text; name : text; imported : list gleam_import; externals : list external;
  prelude_used : list text; constants_used : list (variant * text); instanceof : list variant;
  echo_with_stdlib : bool }.

Fixpoint repeat_text (s : text) (n : nat) : text := match n with O => [] | S n => s ++ repeat_text s n end.
(** javascript.rs:123 *)
Definition segments_count (m : gleam_module) : nat := Datatypes.length (pieces (name m)).
(** javascript.rs:995-1013 *)
Definition import_path (m : gleam_module) (pkg module : text) : text :=
  if text_eqb pkg (package m) || text_eqb pkg [] then
    match segments_count m with
    | 1%nat => str "./" ++ module ++ str ".mjs"
    | n => repeat_text (str "../") (n - 1) ++ module ++ str ".mjs"
    end
  else repeat_text (str "../") (segments_count m) ++ pkg ++ str "/" ++ module ++ str ".mjs".

(** javascript.rs:1015-1055 *)
Definition register_import (m : gleam_module) (i : imports) (g : gleam_import) : imports :=
  let get_name := last (pieces (from_module g)) [] in
  let '(discarded, module_name) :=
    match as_name g with
    | None => (false, get_name)
    | Some None => (true, get_name)
    | Some (Some n) => (false, n)
    end in
  let members := map (fun '(n, a) => Member (maybe_escape_identifier n) (option_map maybe_escape_identifier a)) (values g) in
  register_module i (import_path m (from_package g) (from_module g))
    (if discarded then [] else [str "$" ++ module_name]) members.

(** javascript.rs:1057-1082 *)
Definition register_external_function (i : imports) (e : external) : imports :=
  let needs_escaping := negb (is_usable_js_identifier (function e)) in
  let a :=
    if text_eqb (function e) (js_function e) && negb needs_escaping then None
    else if needs_escaping then Some (escape_identifier (function e))
    else Some (function e) in
  let i := if public e then register_export i (maybe_escape_identifier (function e)) else i in
  register_module i (js_module e) [] [Member (js_function e) a].

(** javascript.rs:956-993 *)
Definition collect_imports (m : gleam_module) : imports :=
  fold_left register_external_function (externals m)
    (fold_left (register_import m) (imported m) (Imports [] [])).

(** javascript.rs:450-463 *)
Definition register_prelude_usage (m : gleam_module) (i : imports) (u : text * option text) : imports :=
  register_module i (import_path m (package m) (str "gleam")) [] [Member (fst u) (snd u)].
(** javascript.rs:219-322 and 439-441 *)
Definition prelude_table : list (text * option text) :=
  [(str "Ok", None); (str "Error", None); (str "toList", None); (str "Empty", Some (str "$Empty"));
   (str "List$Empty$const", Some (str "$List$Empty$const")); (str "NonEmpty", Some (str "$NonEmpty"));
   (str "prepend", Some (str "listPrepend")); (str "CustomType", Some (str "$CustomType"));
   (str "makeError", None); (str "remainderInt", None); (str "divideFloat", None); (str "divideInt", None);
   (str "isEqual", None); (str "toBitArray", None); (str "bitArraySlice", None); (str "bitArraySliceToFloat", None);
   (str "bitArraySliceToInt", None); (str "sizedInt", None); (str "stringBits", None); (str "stringToUtf16", None);
   (str "stringToUtf32", None); (str "codepointBits", None); (str "codepointToUtf16", None);
   (str "codepointToUtf32", None); (str "sizedFloat", None);
   (str "BitArray", Some (str "$BitArray")); (str "List", Some (str "$List")); (str "UtfCodepoint", Some (str "$UtfCodepoint"))].

Definition used_table (m : gleam_module) : list (text * option text) :=
  filter (fun u => existsb (text_eqb (fst u)) (prelude_used m)) prelude_table.

Definition variant_eqb (v w : variant) : bool :=
  text_eqb (v_package v) (v_package w) && text_eqb (v_module v) (v_module w)
  && text_eqb (v_type v) (v_type w) && text_eqb (v_name v) (v_name w).
Fixpoint insert_constant (v : variant) (a : option text) (l : list (variant * option text)) : list (variant * option text) :=
  match l with
  | [] => [(v, a)]
  | (w, b) :: l => if variant_eqb w v then (w, a) :: l else (w, b) :: insert_constant v a l
  end.
Definition constant (t n : text) : text := t ++ str "$" ++ n ++ str "$const".
(** expression.rs:3482-3500: the variant, and the name that it is used by *)
Definition variant_constants_used (m : gleam_module) : list (variant * option text) :=
  fold_left (fun l '(v, n) => insert_constant v (if text_eqb n (v_name v) then None else Some (constant (v_type v) n)) l)
    (constants_used m) [].
(** javascript.rs:324-331 *)
Definition register_constant (m : gleam_module) (i : imports) (c : variant * option text) : imports :=
  let '(v, a) := c in
  register_module i (import_path m (v_package v) (v_module v)) [] [Member (constant (v_type v) (v_name v)) a].
(** javascript.rs:425-437 *)
Definition register_dict (m : gleam_module) (i : imports) : imports :=
  if echo_with_stdlib m then
    register_import m i (GleamImport (str "gleam_stdlib") (str "gleam/dict") (Some (Some (str "stdlib$dict"))) [])
  else i.

(** javascript.rs:361-370 *)
Definition unused (m : gleam_module) (constants : list (variant * option text)) : list (text * text) :=
  map (fun '(v, _) => (import_path m (v_package v) (v_module v), v_name v))
    (filter (fun '(v, _) => negb (existsb (variant_eqb v) (instanceof m))) constants).
(** javascript.rs:201-420: the imports of [compile]. [constants] are the entries of [variant_constants_used m],
    a [std::collections::HashMap] (javascript.rs:12, 1593), in the order in which it happens to be iterated, at 324 and at
    363. The prelude's table is registered in one go; the last three of it come after the filter in the code, which does
    not look at them. *)
Definition compile_imports (m : gleam_module) (constants : list (variant * option text)) : imports :=
  let i := collect_imports m in
  let i := fold_left (register_prelude_usage m) (used_table m) i in
  let i := fold_left (register_constant m) constants i in
  let i := filter_unused_variants i (unused m constants) in
  register_dict m i.
Definition compile (m : gleam_module) (constants : list (variant * option text)) : list statement :=
  into_doc (compile_imports m constants).
