(** What is built with the builder of Erlang source, the calls that build it, as the documentation
    of the trait [ErlangBuilder] (erlang-generation/src/lib.rs, 120-1388) orders them, and what
    Erlang has to read. *)
From Coq Require Import String NArith ZArith List Bool.
From Verif Require Import Text StringsSpec Erl ErlangSource.
Import ListNotations.
Local Open Scope list_scope.

(** ** Trees *)

(** Expressions and patterns.  A string comes as it is written in a Gleam literal, and with the
    text it stands for; a segment with its value, its size and its specifiers; a clause with its
    pattern, its guard and its body. *)
Inductive node :=
| NVar (name : text)
| NDiscard
| NInt (z : Z)
| NFloat (f : float)
| NString (written value : text)
| NAtom (name : text)
| NTuple (elements : list node)
| NNil
| NCons (head tail : node)
| NBits (segments : list (node * (option node * list specifier)))
| NMap (fields : list (node * node))
| NBlock (body : list node)
| NCall (function : node) (arguments : list node)
| NRemote (module function : text) (arguments : list node)
| NUnary (operator : sym) (n : node)
| NBinary (operator : sym) (left right : node)
| NMatch (pattern n : node)
| NFunRef (module : option text) (name : text) (arity : N)
| NFun (arguments : list text) (body : list node)
| NCase (subject : node) (clauses : list (node * (option node * list node))).

Inductive tree :=
| YVar (name : text)
| YAtom (name : text)
| YNamed (name : text) (arguments : list tree)
| YRemote (module name : text) (arguments : list tree)
| YTuple (elements : list tree)
| YFun (arguments : list tree) (return_ : tree)
| YUnion (alternatives : list tree).

Inductive top :=
| Export (exported : list (text * N))
| ExportType (exported : list (text * N))
| Doc (content : doc)
| Moduledoc (content : doc)
| Compile (arguments : list text)
| AtFile (written file : text) (line : N)
| RecordDefinition (name : text) (fields : list (text * tree))
| Spec (name : text) (arguments : list tree) (return_ : tree)
| TypeDefinition_ (opaque : bool) (name : text) (variables : list text) (t : tree)
| Function_ (name : text) (arguments : list text) (body : list node).

(** ** The protocol *)

Definition operator_text (s : sym) : text :=
  match s with
  | Plus => str "+" | Minus => str "-" | Star => str "*" | Slash => str "/"
  | KDiv => str "div" | KRem => str "rem" | KNot => str "not"
  | KAndalso => str "andalso" | KOrelse => str "orelse"
  | Less => str "<" | LessEq => str "=<" | Greater => str ">" | GreaterEq => str ">="
  | ExactEq => str "=:=" | ExactNe => str "=/=" | LooseEq => str "==" | LooseNe => str "/="
  | PlusPlus => str "++" | MinusMinus => str "--"
  | _ => []
  end.

Definition by_kind {A} (k : kind) (pattern expression : A) : A :=
  match k with Pattern => pattern | Expression => expression end.

Fixpoint calls (k : kind) (n : node) : list call :=
  match n with
  | NVar x => [by_kind k (variable_pattern x) (variable x)]
  | NDiscard => [discard_pattern]
  | NInt z => [by_kind k (int_pattern z) (int z)]
  | NFloat f => [by_kind k (float_pattern f) (float_ f)]
  | NString written _ => [by_kind k (string_pattern written) (string_ written)]
  | NAtom a => [by_kind k (atom_pattern a) (atom a)]
  | NTuple l =>
      [by_kind k start_tuple_pattern start_tuple] ++ flat_map (calls k) l ++
      [by_kind k end_tuple_pattern end_tuple]
  | NNil => [by_kind k empty_list_pattern empty_list]
  | NCons h t => [by_kind k cons_list_pattern cons_list] ++ calls k h ++ calls k t
  | NBits l =>
      [by_kind k start_bit_array_pattern start_bit_array] ++
      flat_map (fun '(v, (size, specifiers)) =>
        [bit_array_segment] ++ calls k v ++
        match size with
        | Some n => calls Expression n
        | None => [bit_array_segment_default_size]
        end ++ [bit_array_segment_specifiers specifiers]) l ++
      [by_kind k end_bit_array_pattern end_bit_array]
  | NMap l =>
      [start_map] ++ flat_map (fun '(a, b) => [map_field] ++ calls k a ++ calls k b) l ++ [end_map]
  | NBlock l => [start_block] ++ flat_map (calls k) l ++ [end_block]
  | NCall f l =>
      [start_call] ++ calls k f ++ [end_called_expression] ++ flat_map (calls k) l ++ [end_call]
  | NRemote m f l => [start_remote_call m f] ++ flat_map (calls k) l ++ [end_call]
  | NUnary op n => [unary_operator (operator_text op)] ++ calls k n
  | NBinary op a b => [binary_operator (operator_text op)] ++ calls k a ++ calls k b
  | NMatch p n => [by_kind k match_pattern match_operator] ++ calls Pattern p ++ calls k n
  | NFunRef m f a => [function_reference m f a]
  | NFun l body => [start_anonymous_function l] ++ flat_map (calls k) body ++ [end_function]
  | NCase n l =>
      [start_case] ++ calls k n ++ [end_case_subject] ++
      flat_map (fun '(p, (guard, body)) =>
        [start_case_clause] ++ calls Pattern p ++ [end_clause_pattern] ++
        match guard with
        | Some g => [start_clause_guard] ++ calls Expression g ++ [end_clause_guard]
        | None => []
        end ++ [end_clause_guards] ++ flat_map (calls k) body ++ [end_clause_body]) l ++
      [end_case]
  end.

Fixpoint type_calls (t : tree) : list call :=
  match t with
  | YVar x => [type_variable x]
  | YAtom a => [literal_atom_type a]
  | YNamed a l => [start_named_type a] ++ flat_map type_calls l ++ [end_named_type]
  | YRemote m a l => [start_remote_named_type m a] ++ flat_map type_calls l ++ [end_remote_named_type]
  | YTuple l => [start_tuple_type] ++ flat_map type_calls l ++ [end_tuple_type]
  | YFun l t =>
      [start_function_type] ++ flat_map type_calls l ++ [end_function_type_arguments] ++
      type_calls t ++ [end_function_type]
  | YUnion l => [start_union_type] ++ flat_map type_calls l ++ [end_union_type]
  end.

Definition top_calls (f : top) : list call :=
  match f with
  | Export l => [export_attribute l]
  | ExportType l => [export_type_attribute l]
  | Doc d => [doc_attribute d]
  | Moduledoc d => [moduledoc_attribute d]
  | Compile l => [compile_attribute l]
  | AtFile written _ line => [file_attribute written line]
  | RecordDefinition name l =>
      [start_record_attribute name] ++
      flat_map (fun '(f, t) => [record_field; atom f] ++ type_calls t) l ++ [end_record_attribute]
  | Spec name l t =>
      [start_function_spec name (N.of_nat (length l))] ++ type_calls (YFun l t) ++ [end_function_spec]
  | TypeDefinition_ opaque name l t =>
      [start_type_spec opaque name l] ++ type_calls t ++ [end_type_spec]
  | Function_ name l body =>
      [start_function name (N.of_nat (length l)) l] ++ flat_map (calls Expression) body ++
      [end_function]
  end.

(** ** What Erlang has to read *)

Definition signed (sign : option sym) (e : erl) : erl :=
  match sign with Some s => EUnary s e | None => e end.
(** Erlang has no negative literals. *)
Definition int_meaning (z : Z) : erl :=
  signed (if (z <? 0)%Z then Some Minus else None) (EInt (Z.abs_N z)).
(** Every float has a digit after the point, and a zero has a sign. *)
Definition float_meaning (f : float) : erl :=
  let nothing := forallb (N.eqb 48) in
  signed (if negative f then Some Minus
          else if nothing (whole f) && nothing (fraction f) then Some Plus else None)
    (EFloat (whole f) (if nothing (fraction f) then str "0" else fraction f)).

Definition specifier_meaning (s : specifier) : text * option N :=
  match s with
  | Utf8 => (str "utf8", None) | Utf16 => (str "utf16", None) | Utf32 => (str "utf32", None)
  | Integer => (str "integer", None) | Floating => (str "float", None)
  | Binary => (str "binary", None) | Bitstring => (str "bitstring", None)
  | Signed => (str "signed", None) | Unsigned => (str "unsigned", None)
  | Little => (str "little", None) | Big => (str "big", None) | Native => (str "native", None)
  | Unit n => (str "unit", Some n)
  end.
(** The unit is last. *)
Definition has_unit (s : specifier) : bool := match s with Unit _ => true | _ => false end.
Definition specifiers_meaning (l : list specifier) : list (text * option N) :=
  map specifier_meaning (filter (fun s => negb (has_unit s)) l ++ filter has_unit l).

(** [=] associates to the right: in [(a = b) = e], [a] and [b] are both matched with [e]. *)
Fixpoint match_onto (p e : erl) : erl :=
  match p with EMatch a b => EMatch a (match_onto b e) | _ => EMatch p e end.

(** A string is a binary, except as the value of a segment. *)
Fixpoint meaning (n : node) : erl :=
  match n with
  | NVar x => EVar x
  | NDiscard => EVar (str "_")
  | NInt z => int_meaning z
  | NFloat f => float_meaning f
  | NString _ value => EBinary value
  | NAtom a => EAtom a
  | NTuple l => ETuple (map meaning l)
  | NNil => ENil
  | NCons h t => ECons (meaning h) (meaning t)
  | NBits l =>
      EBits (map (fun '(v, (size, specifiers)) =>
        (match v with NString _ value => EString value | _ => meaning v end,
         (option_map meaning size, specifiers_meaning specifiers))) l)
  | NMap l => EMap (map (fun '(a, b) => (meaning a, meaning b)) l)
  | NBlock l => EBlock (map meaning l)
  | NCall f l => ECall (meaning f) (map meaning l)
  | NRemote m f l => ECall (ERemote (EAtom m) (EAtom f)) (map meaning l)
  | NUnary op n => EUnary op (meaning n)
  | NBinary op a b => EOp op (meaning a) (meaning b)
  | NMatch p n => match_onto (meaning p) (meaning n)
  | NFunRef m f a => EFunRef m f a
  | NFun l body => EFun (map EVar l) (map meaning body)
  | NCase n l =>
      ECase (meaning n) (map (fun '(p, (guard, body)) =>
        (meaning p, (match guard with Some g => [meaning g] | None => [] end, map meaning body))) l)
  end.

(** A union in a union is one union. *)
Fixpoint type_meaning (t : tree) : ty :=
  match t with
  | YVar x => TyVar x
  | YAtom a => TyAtom a
  | YNamed a l => TyNamed None a (map type_meaning l)
  | YRemote m a l => TyNamed (Some m) a (map type_meaning l)
  | YTuple l => TyTuple (map type_meaning l)
  | YFun l t => TyFun (map type_meaning l) (type_meaning t)
  | YUnion l => union (flat_map (fun t =>
      match type_meaning t with TyUnion l => l | t => [t] end) l)
  end.

Definition doc_meaning (d : doc) : erl :=
  match d with DocFalse => EAtom (str "false") | DocString s => EBinary s end.
Definition exported_meaning (l : list (text * N)) : erl :=
  fold_right (fun '(f, a) e => ECons (EOp Slash (EAtom f) (EInt a)) e) ENil l.
(** Nothing is written for an empty list of exports. *)
Definition top_meaning (f : top) : list form :=
  match f with
  | Export [] | ExportType [] => []
  | Export l => [FAttribute (str "export") [exported_meaning l]]
  | ExportType l => [FAttribute (str "export_type") [exported_meaning l]]
  | Doc d => [FAttribute (str "doc") [doc_meaning d]]
  | Moduledoc d => [FAttribute (str "moduledoc") [doc_meaning d]]
  | Compile l => [FAttribute (str "compile") [fold_right (fun a e => ECons (EAtom a) e) ENil l]]
  | AtFile _ file line => [FAttribute (str "file") [EString file; EInt line]]
  | RecordDefinition name l => [FRecord name (map (fun '(f, t) => (f, type_meaning t)) l)]
  | Spec name l t => [FSpec name (map type_meaning l) (type_meaning t)]
  | TypeDefinition_ opaque name l t => [FType opaque name (map EVar l) (type_meaning t)]
  | Function_ name l body => [FFunction name (map EVar l) (map meaning body)]
  end.

(** ** What may be built *)

Definition variable_name (x : text) : bool :=
  match x with [] => false | c :: x => (is_upper c || (c =? 95)%N) && forallb name_char x end.
(** See [C64] for other names. *)
Definition atom_name (a : text) : bool := forallb (fun c => negb ((c =? 39) || (c =? 92))%N) a.
Definition plain_atom (a : text) : Prop :=
  match a with
  | [] => False
  | c :: _ => is_lower c = true /\ forallb name_char a = true /\ word a = TAtom a
  end.
(** A literal of Gleam has no quote that is not escaped. *)
Inductive contents : text -> text -> Prop :=
| contents_end : contents [] []
| contents_piece p c s m : piece p c -> p <> [34%N] -> contents s m -> contents (p ++ s) (c :: m).
Definition float_digits (f : float) : Prop :=
  forallb is_digit (whole f) = true /\ forallb is_digit (fraction f) = true /\
  whole f <> [] /\ (forallb (N.eqb 48) (whole f) = true -> whole f = [48%N]).

Definition has_sign (n : node) : bool :=
  match n with
  | NInt z => (z <? 0)%Z
  | NFloat f => match float_meaning f with EUnary _ _ => true | _ => false end
  | _ => false
  end.
Definition is_match (n : node) : bool := match n with NMatch _ _ => true | _ => false end.
Definition is_string (n : node) : bool := match n with NString _ _ => true | _ => false end.
(** A call is written in parentheses when it is called; these are not. *)
Definition callable (n : node) : bool :=
  match n with
  | NUnary _ _ | NBinary _ _ _ | NMatch _ _ | NMap _ => false
  | n => negb (has_sign n)
  end.
Definition binary (s : sym) : bool :=
  match s with Equals => false | _ => match infix_operator s with Some _ => true | None => false end end.

Definition each {A} (P : A -> Prop) : list A -> Prop :=
  fix each l := match l with [] => True | a :: l => P a /\ each l end.

Fixpoint wf (k : kind) (n : node) : Prop :=
  match n with
  | NVar x => variable_name x = true
  | NDiscard => k = Pattern
  | NInt _ => True
  | NFloat f => float_digits f
  | NString written value => contents written value
  | NAtom a => atom_name a = true
  | NTuple l => each (wf k) l
  | NNil => True
  | NCons h t => wf k h /\ wf k t
  | NBits l =>
      each (fun '(v, (size, specifiers)) =>
        wf k v /\ is_match v = false /\
        match size with Some n => wf Expression n /\ has_sign n = false | None => True end) l
  | NMap l => k = Expression /\ each (fun '(a, b) => wf k a /\ wf k b) l
  | NBlock l => k = Expression /\ l <> [] /\ each (wf k) l
  | NCall f l => k = Expression /\ wf k f /\ callable f = true /\ each (wf k) l
  | NRemote m f l => k = Expression /\ atom_name m = true /\ atom_name f = true /\ each (wf k) l
  | NUnary op n =>
      k = Expression /\ prefix_operator op = true /\ wf k n /\
      is_match n = false /\ is_string n = false
  | NBinary op a b =>
      k = Expression /\ binary op = true /\ wf k a /\ wf k b /\ is_match a = false /\ is_match b = false
  | NMatch p n => wf Pattern p /\ wf k n
  | NFunRef m f _ =>
      k = Expression /\ atom_name f = true /\
      match m with Some m => atom_name m = true | None => True end
  | NFun l body =>
      k = Expression /\ forallb variable_name l = true /\ body <> [] /\ each (wf k) body
  | NCase n l =>
      k = Expression /\ wf k n /\ l <> [] /\
      each (fun '(p, (guard, body)) =>
        wf Pattern p /\ match guard with Some g => wf Expression g | None => True end /\
        body <> [] /\ each (wf k) body) l
  end.

Fixpoint type_wf (t : tree) : Prop :=
  match t with
  | YVar x => variable_name x = true
  | YAtom a => atom_name a = true
  | YNamed a l => atom_name a = true /\ each type_wf l
  | YRemote m a l => atom_name m = true /\ atom_name a = true /\ each type_wf l
  | YTuple l => each type_wf l
  | YFun l t => each type_wf l /\ type_wf t
  | YUnion l => l <> [] /\ each type_wf l
  end.

Definition top_wf (f : top) : Prop :=
  match f with
  | Export l | ExportType l => forallb (fun p => atom_name (fst p)) l = true
  | Doc _ | Moduledoc _ => True
  | Compile l => each plain_atom l
  | AtFile written file _ => quoted 34 Plain (written ++ [34%N]) = Some (file, [])
  | RecordDefinition name l =>
      atom_name name = true /\ each (fun '(f, t) => atom_name f = true /\ type_wf t) l
  | Spec name l t => atom_name name = true /\ each type_wf l /\ type_wf t
  | TypeDefinition_ _ name l t =>
      atom_name name = true /\ forallb variable_name l = true /\ type_wf t
  | Function_ name l body =>
      atom_name name = true /\ forallb variable_name l = true /\ body <> [] /\
      each (wf Expression) body
  end.

(** After these, which do not end their line, come only forms that begin on a new one. *)
Definition ends_line (f : top) : bool :=
  match f with Doc _ | AtFile _ _ _ | RecordDefinition _ _ | Spec _ _ _ => false | _ => true end.
Definition begins_line (f : top) : bool :=
  match f with
  | Doc _ | AtFile _ _ _ | Spec _ _ _ | TypeDefinition_ _ _ _ _ | Function_ _ _ _ => true
  | _ => false
  end.
Fixpoint lines (l : list top) : Prop :=
  match l with
  | f :: ((g :: _) as rest) => (ends_line f = true \/ begins_line g = true) /\ lines rest
  | _ => True
  end.
Definition written (f : top) : bool :=
  match f with Export [] | ExportType [] => false | _ => true end.
Definition module_wf (l : list top) : Prop := each top_wf l /\ lines (filter written l).
