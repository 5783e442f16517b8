(** What a module of JavaScript has to import and export. *)
From Coq Require Import String NArith List Bool Permutation.
From Verif Require Import Text JsScope ManifestTextSpec JsImports.
Import ListNotations.
Local Open Scope list_scope.

(** ** What statements do *)

(** The names that are bound by imports: the file, as written, and its export, or all of it. *)
Definition target := (text * option text)%type.
Definition binds (s : statement) : list (text * target) :=
  match s with
  | ImportAll a p => [(a, (p, None))]
  | ImportSome l p => map (fun m => (match alias m with Some a => a | None => member_name m end, (p, Some (member_name m)))) l
  | Export _ => []
  end.
Definition bindings (l : list statement) : list (text * target) := flat_map binds l.
Definition exported (l : list statement) : list text := flat_map (fun s => match s with Export l => l | _ => [] end) l.

(** ** Where files are *)

(** Modules of Gleam and their file: a directory for each package, and in there the name of the module with
    its extension (codegen.rs:224, 262-272). *)
Definition file_of (pkg module : text) (f : list text) : Prop :=
  exists l, splits (module ++ str ".mjs") l /\ f = pkg :: l.
Definition directory_of (pkg module : text) (d : list text) : Prop :=
  exists l, splits module l /\ d = pkg :: removelast l.
(** Names without a dot at the start are looked for elsewhere. *)
Definition relative (p : text) : Prop := exists r, p = str "./" ++ r \/ p = str "../" ++ r.
(** [p], in the file of [m], is the file of the module. Without a package it is the prelude, of which each package
    has a copy. *)
Definition finds (m : gleam_module) (p pkg module : text) : Prop :=
  relative p /\ exists d w f, directory_of (package m) (name m) d /\ splits p w
    /\ file_of (match pkg with [] => package m | _ => pkg end) module f /\ walk (rev d) w = rev f.

(** ** Names *)
Local Open Scope N_scope.
Definition lower (c : N) : Prop := 97 <= c <= 122.
Definition upper (c : N) : Prop := 65 <= c <= 90.
Definition digit_ (c : N) : Prop := 48 <= c <= 57.
Definition lower_name (s : text) : Prop :=
  exists c r, s = c :: r /\ lower c /\ Forall (fun c => lower c \/ digit_ c \/ c = 95) r.
Definition upper_name (s : text) : Prop :=
  exists c r, s = c :: r /\ upper c /\ Forall (fun c => lower c \/ upper c \/ digit_ c) r.
Definition value_name (s : text) : Prop := lower_name s \/ upper_name s.
Inductive module_name : text -> Prop :=
| one_segment s : lower_name s -> module_name s
| more_segments s r : lower_name s -> module_name r -> module_name (s ++ 47 :: r).
(** The name that a value is used by. *)
Definition used_as (v : text * option text) : text := match snd v with Some a => a | None => fst v end.
(** The last segment of the name of a module. *)
Definition last_segment (module s : text) : Prop :=
  lower_name s /\ (module = s \/ exists r, module = r ++ 47 :: s).
(** What JavaScript calls it: words that are taken there have a dollar after them. *)
Definition js_name (n js : text) : Prop :=
  js = n /\ is_usable_js_identifier n = true \/ js = n ++ str "$" /\ is_usable_js_identifier n = false.

(** ** What has to be bound *)
Inductive place := OfModule (pkg module : text) | AsWritten (p : text).
Definition at_place (m : gleam_module) (p : text) (w : place) : Prop :=
  match w with OfModule pkg module => finds m p pkg module | AsWritten q => p = q end.

(** The class of a variant is not needed if only its constant is used. *)
Definition only_constant (m : gleam_module) (pkg module n : text) : Prop :=
  exists v u, In (v, u) (constants_used m) /\ v_package v = pkg /\ v_module v = module /\ v_name v = n
    /\ ~ In v (instanceof m).

(** What the code calls the parts of the prelude, and what they are called there (templates/prelude.mjs). Names that may be those of the program's own
    definitions have a dollar before them, others can not be written in Gleam; only [Ok] and [Error] are as they are. *)
Definition prelude_parts : list (text * text) := map (fun '(a, b) => (str a, str b))
  [("Ok", "Ok"); ("Error", "Error"); ("toList", "toList"); ("$Empty", "Empty"); ("$List$Empty$const", "List$Empty$const"); ("$NonEmpty", "NonEmpty");
   ("listPrepend", "prepend"); ("$CustomType", "CustomType"); ("makeError", "makeError"); ("remainderInt", "remainderInt");
   ("divideFloat", "divideFloat"); ("divideInt", "divideInt"); ("isEqual", "isEqual"); ("toBitArray", "toBitArray");
   ("bitArraySlice", "bitArraySlice"); ("bitArraySliceToFloat", "bitArraySliceToFloat"); ("bitArraySliceToInt", "bitArraySliceToInt");
   ("sizedInt", "sizedInt"); ("stringBits", "stringBits"); ("stringToUtf16", "stringToUtf16"); ("stringToUtf32", "stringToUtf32");
   ("codepointBits", "codepointBits"); ("codepointToUtf16", "codepointToUtf16"); ("codepointToUtf32", "codepointToUtf32");
   ("sizedFloat", "sizedFloat"); ("$BitArray", "BitArray"); ("$List", "List"); ("$UtfCodepoint", "UtfCodepoint")]%string.

Inductive declares (m : gleam_module) : text -> option text -> place -> Prop :=
| a_module g s : In g (imported m) -> as_name g = None -> last_segment (from_module g) s ->
    declares m (str "$" ++ s) None (OfModule (from_package g) (from_module g))
| a_renamed_module g s : In g (imported m) -> as_name g = Some (Some s) ->
    declares m (str "$" ++ s) None (OfModule (from_package g) (from_module g))
| a_value g v j k : In g (imported m) -> In v (values g) -> js_name (used_as v) j -> js_name (fst v) k ->
    ~ only_constant m (from_package g) (from_module g) (fst v) ->
    declares m j (Some k) (OfModule (from_package g) (from_module g))
| an_external e j : In e (externals m) -> js_name (function e) j ->
    declares m j (Some (js_function e)) (AsWritten (js_module e))
| a_prelude_part j n : In (j, n) prelude_parts -> In n (prelude_used m) ->
    declares m j (Some n) (OfModule [] (str "gleam"))
| a_constant v u : In (v, u) (constants_used m) ->
    declares m (v_type v ++ str "$" ++ u ++ str "$const") (Some (v_type v ++ str "$" ++ v_name v ++ str "$const"))
      (OfModule (v_package v) (v_module v))
| a_dict : echo_with_stdlib m = true ->
    declares m (str "$stdlib$dict") None (OfModule (str "gleam_stdlib") (str "gleam/dict")).

(** The names of the values of a module that come from elsewhere. *)
Definition value_names (m : gleam_module) : list text :=
  flat_map (fun g => map used_as (values g)) (imported m) ++ map function (externals m).
Definition module_names (m : gleam_module) : list text :=
  flat_map (fun g => match as_name g with
                     | None => [str "$" ++ last (ManifestText.pieces (from_module g)) []]
                     | Some None => []
                     | Some (Some n) => [str "$" ++ n]
                     end) (imported m).

(** What the analysis has made sure of, and what the prelude and the generated code are like. *)
Record checked (m : gleam_module) : Prop := Checked {
  ok_package : lower_name (package m);
  ok_name : module_name (name m);
  ok_imports : Forall (fun g => (from_package g = [] /\ from_module g = str "gleam" \/ lower_name (from_package g)) /\ module_name (from_module g)
      /\ match as_name g with Some (Some n) => lower_name n | _ => True end
      /\ Forall (fun v => value_name (fst v) /\ match snd v with Some a => value_name a | None => True end) (values g)) (imported m);
  ok_externals : Forall (fun e => lower_name (function e)) (externals m);
  (* analyse/imports.rs:256-280, 328-390 and the names of definitions *)
  ok_value_names : NoDup (value_names m);
  ok_module_names : NoDup (module_names m);
  (* A value that is called as a constructor of the prelude is no longer used by its own name. *)
  ok_prelude : forall n, In n (prelude_used m) -> In n [str "Ok"; str "Error"] -> ~ In n (value_names m);
  (* Constants are of variants that were imported, by the name that they are used by. *)
  ok_constants : forall v u, In (v, u) (constants_used m) ->
    upper_name (v_type v) /\ upper_name (v_name v) /\ upper_name u /\ v_module v <> str "gleam"
    /\ exists g x, In g (imported m) /\ In x (values g) /\ from_package g = v_package v /\ from_module g = v_module v
         /\ fst x = v_name v /\ used_as x = u;
  (* The names of variants are the only ones of their module. *)
  ok_variants : forall v u w y, In (v, u) (constants_used m) -> In (w, y) (constants_used m) ->
    v_package v = v_package w -> v_module v = v_module w -> v_name v = v_name w -> v_type v = v_type w;
  (* Functions of JavaScript are not taken from files that are generated. *)
  ok_files : forall e g, In e (externals m) -> In g (imported m) -> ~ finds m (js_module e) (from_package g) (from_module g) }.

(** No value of a module is imported twice, by two names. *)
Definition imported_once (m : gleam_module) : Prop :=
  NoDup (flat_map (fun g => map (fun v => (from_package g, from_module g, fst v)) (values g)) (imported m)).

(** What the module may be compiled to: the table of constants is iterated in any order. *)
Definition compiles (m : gleam_module) (l : list statement) : Prop :=
  exists constants, Permutation constants (variant_constants_used m) /\ l = compile m constants.
(** Of each module one constant is used at most. *)
Definition one_constant_each (m : gleam_module) : Prop :=
  forall v u w y, In (v, u) (constants_used m) -> In (w, y) (constants_used m) ->
    v_package v = v_package w -> v_module v = v_module w -> v = w.
