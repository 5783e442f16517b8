(** The patterns suggested when a [case] does not match everything.  Model of
    compiler-core/src/exhaustiveness/missing_patterns.rs 10-219 and
    compiler-core/src/exhaustiveness/printer.rs 22-219, over the decision trees of Case.v.

    Simplifications: hash maps are association lists; what is appended to the buffer is
    returned; whether a type is internal is a function of its module and name (in the code
    it is written in the type); as in Case.v the prelude's types with literals are not named
    types. *)
From Coq Require Import String NArith Bool List.
From Verif Require Import Text Strings Bits Case.
Import ListNotations.
Local Open Scope nat_scope.
Local Open Scope list_scope.

(** ** Names of constructors *)

(** [Names], compiler-core/src/type_/printer.rs 24-110: what [named_constructor] looks at. *)
Record names := Names {
  local_value_constructors : list ((text * text) * text);
  imported_modules : list (text * text) }.
(** [NameContextInformation], type_/printer.rs. *)
Inductive name_context :=
  | Qualified (module name : text)
  | Unqualified (name : text)
  | Unimported (module name : text).
Fixpoint get_by_left (key : text * text) (l : list ((text * text) * text)) : option text :=
  match l with
  | [] => None
  | (k, alias) :: l =>
      if text_eqb (fst k) (fst key) && text_eqb (snd k) (snd key) then Some alias else get_by_left key l
  end.
Fixpoint get_module (key : text) (l : list (text * text)) : option text :=
  match l with
  | [] => None
  | (k, alias) :: l => if text_eqb k key then Some alias else get_module key l
  end.
(** [Names::named_constructor], type_/printer.rs 312-330. *)
Definition named_constructor (ns : names) (module name : text) : name_context :=
  match get_by_left (module, name) (local_value_constructors ns) with
  | Some alias => Unqualified alias
  | None =>
      match get_module module (imported_modules ns) with
      | Some alias => Qualified alias name
      | None => Unimported module name
      end
  end.
(** [module.split('/').next_back()]. *)
Fixpoint last_part (m : text) : text :=
  match m with
  | [] => []
  | c :: r => if existsb (N.eqb 47) m then last_part r else m
  end.

(** ** Terms *)

(** [Term] and [VariantField], missing_patterns.rs 22-63. *)
Inductive term :=
  | TVariant (variable : cvar) (name module : text) (fields : list (option text * cvar))
  | TTuple (variable : cvar) (elements : list cvar)
  | TInfinite (variable : cvar)
  | TEmptyList (variable : cvar)
  | TList (variable first rest : cvar).
Definition term_variable (t : term) : cvar :=
  match t with
  | TVariant v _ _ _ | TTuple v _ | TInfinite v | TEmptyList v | TList v _ _ => v
  end.
Fixpoint get_label (i : nat) (labels : list (nat * text)) : option text :=
  match labels with
  | [] => None
  | (j, l) :: labels => if Nat.eqb j i then Some l else get_label i labels
  end.
Fixpoint variant_fields (i : nat) (labels : list (nat * text)) (fields : list cvar) : list (option text * cvar) :=
  match fields with
  | [] => []
  | v :: fields => (get_label i labels, v) :: variant_fields (S i) labels fields
  end.
(** [check_to_term], missing_patterns.rs 159-218. *)
Definition check_to_term (env : environment) (v : cvar) (c : check) : out term :=
  match c with
  | IsInt _ | IsFloat _ | IsString _ | IsBitArray _ | IsStringPrefix _ _ => Done (TInfinite v)
  | IsTuple _ elements => Done (TTuple v elements)
  | IsVariant _ index labels fields =>
      match var_type v with
      | CNamed module name _ _ =>
          match get_constructors_for_type env module name with
          | None => Panic
          | Some variants =>
              match nth_error (tv_variants variants) index with
              | None => Panic
              | Some k => Done (TVariant v (c_name k) module (variant_fields 0 labels fields))
              end
          end
      | _ => Panic
      end
  | IsNonEmptyList first rest => Done (TList v first rest)
  | IsEmptyList => Done (TEmptyList v)
  end.

(** ** Printing *)

(** The mapping of variables to the index of their last term, missing_patterns.rs 109-112:
    the newest entry is first. *)
Fixpoint mapping_from (index : nat) (terms : list term) (m : list (nat * nat)) : list (nat * nat) :=
  match terms with
  | [] => m
  | t :: terms => mapping_from (S index) terms ((id (term_variable t), index) :: m)
  end.
Fixpoint mapping_get (m : list (nat * nat)) (key : nat) : option nat :=
  match m with
  | [] => None
  | (k, i) :: m => if Nat.eqb k key then Some i else mapping_get m key
  end.

Section Printer.
  Context (env : environment) (ns : names) (is_internal : text -> text -> bool).
  Context (terms : list term) (mapping : list (nat * nat)).

  Definition type_is_internal (t : ctype) : bool :=
    match t with CNamed m n _ _ => is_internal m n | _ => false end.
  (** printer.rs 89-101: the module to write, the name. *)
  Definition constructor_text (module name : text) : text :=
    match named_constructor ns module name with
    | Qualified m n => m ++ str "." ++ n
    | Unqualified n => n
    | Unimported m n => last_part m ++ str "." ++ n
    end.

  Section Level.
    (** Printing the terms of the next level. *)
    Context (print_term : term -> out text).
    (** A variable: its term, or [_]. *)
    Definition print_variable (v : cvar) : out text :=
      match mapping_get mapping (id v) with
      | Some index =>
          match nth_error terms index with
          | Some t => print_term t
          | None => Panic
          end
      | None => Done (str "_")
      end.
    (** A loop that writes [, ] before all but the first. *)
    Fixpoint print_all {A} (f : A -> out text) (first : bool) (l : list A) : out text :=
      match l with
      | [] => Done []
      | x :: l =>
          let* s := f x in
          let* r := print_all f false l in
          Done ((if first then [] else str ", ") ++ s ++ r)
      end.
    (** A field of a constructor, printer.rs 116-149. *)
    Definition print_field (field : option text * cvar) : out text :=
      let '(label, v) := field in
      let start := match label with Some l => l ++ str ":" | None => [] end in
      match mapping_get mapping (id v) with
      | Some index =>
          match nth_error terms index with
          | None => Panic
          | Some t =>
              match t, label with
              | TInfinite _, Some _ => Done start
              | _, _ =>
                  let* s := print_term t in
                  Done (start ++ (match label with Some _ => str " " | None => [] end) ++ s)
              end
          end
      | None => Done (start ++ match label with Some _ => [] | None => str "_" end)
      end.
  End Level.

  (** [print] 53-174 and [print_list] 176-218. *)
  Fixpoint print (fuel : nat) (t : term) : out text :=
    match fuel with
    | 0 => OutOfFuel
    | S fuel =>
        match t with
        | TVariant v name module fields =>
            if type_is_internal (var_type v) && negb (text_eqb module (current_module env)) then Done (str "_")
            else
              match fields with
              | [] => Done (constructor_text module name)
              | _ =>
                  let* s := print_all (print_field (print fuel)) true fields in
                  Done (constructor_text module name ++ str "(" ++ s ++ str ")")
              end
        | TTuple _ elements =>
            let* s := print_all (print_variable (print fuel)) true elements in
            Done (str "#(" ++ s ++ str ")")
        | TInfinite _ => Done (str "_")
        | TEmptyList _ => Done (str "[]")
        | TList _ _ _ =>
            let* s := print_list fuel t in
            Done (str "[" ++ s ++ str "]")
        end
    end
  with print_list (fuel : nat) (t : term) : out text :=
    match fuel with
    | 0 => OutOfFuel
    | S fuel =>
        match t with
        | TInfinite _ | TVariant _ _ _ _ | TTuple _ _ => Done (str "_")
        | TEmptyList _ => Done []
        | TList _ first rest =>
            let* s := print_variable (print fuel) first in
            let* r :=
              match mapping_get mapping (id rest) with
              | Some index =>
                  match nth_error terms index with
                  | None => Panic
                  | Some (TEmptyList _) => Done []
                  | Some t =>
                      let* r := print_list fuel t in
                      Done (str ", " ++ r)
                  end
              | None => Done (str ", ..")
              end in
            Done (s ++ r)
        end
    end.
  (** Each level of printing is for another term, and a list takes two steps. *)
  Definition print_fuel : nat := 2 + 2 * length terms.
  (** [print_terms], printer.rs 30-51. *)
  Definition print_terms (subjects : list cvar) : out text :=
    print_all (print_variable (print print_fuel)) true subjects.
End Printer.

(** ** The patterns *)

(** [IndexSet::insert]. *)
Definition insert (s : text) (l : list text) : list text :=
  if existsb (text_eqb s) l then l else l ++ [s].

Section Generator.
  Context (env : environment) (ns : names) (is_internal : text -> text -> bool).
  Context (subjects : list cvar).
  (** [add_missing_patterns] 91-145 and [add_missing_patterns_after_check] 147-157. *)
  Fixpoint add_missing_patterns (d : decision) (terms : list term) (missing : list text) : out (list text) :=
    match d with
    | Run _ => Done missing
    | Guard _ _ d => add_missing_patterns d terms missing
    | Fail =>
        let* s := print_terms env ns is_internal terms (mapping_from 0 terms []) subjects in
        Done (insert s missing)
    | Switch v choices fallback fcheck =>
        let* missing :=
          (fix each (choices : list (check * decision)) (missing : list text) : out (list text) :=
             match choices with
             | [] => Done missing
             | (c, d) :: choices =>
                 let* t := check_to_term env v c in
                 let* missing := add_missing_patterns d (terms ++ [t]) missing in
                 each choices missing
             end) choices missing in
        match fcheck with
        | InfiniteCatchAll => add_missing_patterns fallback terms missing
        | FallbackRuntimeCheck c =>
            let* t := check_to_term env v c in
            add_missing_patterns fallback (terms ++ [t]) missing
        | CatchAll ignored =>
            (fix each (ignored : list check) (missing : list text) : out (list text) :=
               match ignored with
               | [] => Done missing
               | c :: ignored =>
                   let* t := check_to_term env v c in
                   let* missing := add_missing_patterns fallback (terms ++ [t]) missing in
                   each ignored missing
               end) ignored missing
        end
    end.
End Generator.

(** [missing_patterns], missing_patterns.rs 10-20, of the tree of a [case] with these
    subjects. *)
Definition missing_patterns (env : environment) (ns : names) (is_internal : text -> text -> bool)
    (subjects : list ctype) (d : decision) : out (list text) :=
  add_missing_patterns env ns is_internal (subject_variables_from 0 subjects) d [] [].
