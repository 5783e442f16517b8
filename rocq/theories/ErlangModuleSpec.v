(** What the Erlang code of a module has to be: its forms, and the functions it has. *)
From Coq Require Import String NArith ZArith List Bool.
From Verif Require Import Text Strings StringsSpec Erl ErlangSource ErlangSourceSpec ErlangTypes ErlangTypesSpec
  ErlangCode ErlangRun ErlangCodeSpec ErlangModule.
Import ListNotations.
Local Open Scope nat_scope.
Local Open Scope list_scope.

Definition name_of (f : module_fn) : text := f_name (mf_function f).
Definition arity_of (f : module_fn) : nat := length (f_arguments (mf_function f)).

(** ** The functions that there is code for *)

(** Private external functions are called where they are. *)
Definition has_code (m : module) (f : module_fn) : Prop :=
  mf_supports_erlang f = true /\ ~ In (mf_start f) (m_unused m) /\
  (mf_external f = None \/ mf_publicity f <> Private).
(** The functions of Gleam. *)
Definition gleam_functions (m : module) : list function :=
  map mf_function
    (filter (fun f => mf_supports_erlang f && negb (existsb (N.eqb (mf_start f)) (m_unused m)) &&
                      match mf_external f with Some _ => false | None => true end)
       (m_functions m)).

(** ** Functions that the constants refer to *)

(** The variables written in a constant. *)
Inductive mentions : constant -> constant -> Prop :=
| mentions_function n m f x : mentions (CFunction n m f x) (CFunction n m f x)
| mentions_constant n b c : mentions (CConstant n b c) (CConstant n b c)
| mentions_tuple l c d : In c l -> mentions c d -> mentions (CTuple l) d
| mentions_element l t c d : In c l -> mentions c d -> mentions (CList l t) d
| mentions_tail l c d : mentions c d -> mentions (CList l (Some c)) d
| mentions_argument l c d : In c l -> mentions c d -> mentions (CRecord (Some l)) d
| mentions_left a b d : mentions a d -> mentions (CBinaryOperator a b) d
| mentions_right a b d : mentions b d -> mentions (CBinaryOperator a b) d.
(** The functions that Gleam code has a reference to where it has a constant: constants are
    replaced by their values. *)
Inductive refers_to : constant -> text * text -> Prop :=
| refers_function c n m f : mentions c (CFunction n m f None) -> refers_to c (m, f)
| refers_constant c n b d r : mentions c (CConstant n b d) -> refers_to d r -> refers_to c r.

(** What of a constant is written has a name of a function [x]. *)
Definition writes (m : module) (x : text) : Prop :=
  exists p c, In (p, c) (m_constants m) /\ p <> Private /\
    ((exists mo f e, mentions c (CFunction x mo f e)) \/ (exists d, mentions c (CConstant x true d))).

(** ** Modules *)

Definition module_name_character (c : N) : bool := name_char c || (c =? 47)%N.
Definition legal_fn (m : module) (f : module_fn) : Prop :=
  length (mf_types f) = arity_of f /\
  Forall proper (mf_types f) /\ proper (mf_return f) /\
  Forall ErlangTypesSpec.legal (mf_types f) /\ ErlangTypesSpec.legal (mf_return f) /\
  match mf_external f with
  | None => legal_function (m_name m) (mf_function f)
  | Some (external_module, external_name) =>
      valid_name (name_of f) = true /\ fresh [] (arguments_bound (f_arguments (mf_function f))) /\
      atom_name external_module = true /\ atom_name external_name = true
  end.
Definition legal_module (m : module) : Prop :=
  forallb module_name_character (m_name m) = true /\
  ~ In 34%N (m_path m) /\
  Forall (fun c => legal_definition c /\ exists ps, proper_definition c ps) (m_types m) /\
  NoDup (map name_of (m_functions m)) /\
  (forall f, In f (m_functions m) -> valid_name (name_of f) = true /\ (has_code m f -> legal_fn m f)).

(** ** The forms *)

Definition attribute (name : string) (e : erl) : form := FAttribute (str name) [e].
Definition atoms (l : list string) : erl := fold_right (fun a e => ECons (EAtom (str a)) e) ENil l.
(** Nothing is exported by an attribute that is not there. *)
Definition exporting (name : string) (l : list (text * N)) : list form :=
  match l with [] => [] | l => [attribute name (exported_meaning l)] end.

(** A definition of a type, see [C67]. *)
Definition type_form (here : text) (c : custom_type) (form_ : form) : Prop :=
  exists ps unused, proper_definition c ps /\ NoDup unused /\
    (forall n, In n unused <-> exists x, n = id_to_type_var_str x /\ phantom c x) /\
    [form_] = top_meaning (type_meaning_of here ps unused c).

(** The types of a specification, see [C66]. *)
Definition spec_form (here : text) (f : module_fn) : form :=
  let variable := spec_variable (mf_types f ++ [mf_return f]) in
  FSpec (exported_name (name_of f))
    (map (fun t => type_meaning (erlang_type variable here t)) (mf_types f))
    (type_meaning (erlang_type variable here (mf_return f))).

(** Documentation is hidden when it is internal, and left out when there is none. *)
Definition documentation (name : string) (hidden : bool) (text_ : text) : list form :=
  if hidden then [attribute name (EAtom (str "false"))]
  else match text_ with [] => [] | _ => [attribute name (EBinary text_)] end.
Definition doc_forms (m : module) (f : module_fn) : list form :=
  documentation "doc" (m_internal m || match mf_publicity f with Internal => true | _ => false end)
    match mf_documentation f with Some t => t | None => [] end.
Definition moduledoc_forms (m : module) : list form :=
  if m_internal m then [attribute "moduledoc" (EAtom (str "false"))]
  else match m_documentation m with
       | [] => []
       | l => [attribute "moduledoc" (EBinary (tl (flat_map (fun t => 10%N :: t) l)))]
       end.

(** All of a function; [ps] and [body] are its code. *)
Definition function_form (m : module) (lines : N -> N) (f : module_fn) (ps body : list erl)
    : list form :=
  [FAttribute (str "file") [EString (m_path m); EInt (lines (mf_start f))]; spec_form (m_name m) f] ++
  doc_forms m f ++ [FFunction (exported_name (name_of f)) ps body].

(** Something is exported, or is a name that a constant has and that is not private. *)
Definition is_exported (m : module) (f : module_fn) : Prop :=
  mf_supports_erlang f = true /\ (mf_publicity f <> Private \/ writes m (name_of f)).

(** The elements that are chosen, in order. *)
Inductive chosen {A} (P : A -> Prop) : list A -> list A -> Prop :=
| chosen_none : chosen P [] []
| chosen_yes a l r : P a -> chosen P l r -> chosen P (a :: l) (a :: r)
| chosen_no a l r : ~ P a -> chosen P l r -> chosen P (a :: l) r.

Definition signature (f : module_fn) : text * N := (exported_name (name_of f), N.of_nat (arity_of f)).
(** The forms of the module [m]. *)
Definition described (m : module) (lines : N -> N) (forms : list form) : Prop :=
  exists exported types coded functions,
    chosen (is_exported m) (m_functions m) exported /\
    Forall2 (type_form (m_name m)) (m_types m) types /\
    chosen (has_code m) (m_functions m) coded /\
    Forall2 (fun f l => exists ps body, length ps = arity_of f /\ l = function_form m lines f ps body)
      coded functions /\
    forms =
      [attribute "module" (EAtom (erlang_module_name (m_name m)));
       attribute "compile" (atoms ["no_auto_import"; "nowarn_ignored"; "nowarn_unused_vars";
                                   "nowarn_unused_function"; "nowarn_nomatch"; "inline"]%string)] ++
      exporting "export" (map signature exported) ++
      exporting "export_type"
        (map (fun c => (erlang_name (ct_name c), N.of_nat (length (ct_parameters c)))) (m_types m)) ++
      moduledoc_forms m ++ types ++ concat functions.

(** ** What the module does *)

(** Calling a function of the module in Erlang does what calling it in Gleam does: it calls the same
    functions of other modules with the same arguments in the same order, and then gives the same
    value or stops with a report of the same failure. *)
Definition acts_as_gleam (m : module) (lines : N -> N) (forms : list form) : Prop :=
  forall gleam erlang n h eh f vs us r,
    same_world gleam erlang -> Forall2 represents vs us -> represents_past h eh ->
    applied (m_name m) lines (gleam_functions m) gleam n h (DFunction f (N.of_nat (length vs))) vs =
      Some r ->
    exists eh', represents_past (fst r) eh' /\
    match snd r with
    | inl v => exists u, maybe_represents v u /\
                 calls_to forms erlang eh (exported_name f) us (eh', inl u)
    | inr e => exists u, reports maybe_represents (m_path m) (m_name m) e u /\
                 calls_to forms erlang eh (exported_name f) us (eh', inr u)
    end.

(** What other modules can call, and what there is code for. *)
Definition exports (forms : list form) (f : text) (arity : nat) : Prop :=
  exists l, In (attribute "export" (exported_meaning l)) forms /\ In (f, N.of_nat arity) l.
Definition defines (forms : list form) (f : text) (arity : nat) : Prop :=
  exists ps body, In (FFunction f ps body) forms /\ length ps = arity.
