(** The graph of the definitions of a module: compiler-core/src/call_graph.rs.

    [tarjan_scc] comes from petgraph; [into_dependency_order] takes its result as a parameter. *)
From Coq Require Import NArith Bool List.
From Verif Require Import Text.
Import ListNotations.

Definition span := (N * N)%type.

(** ** The untyped syntax tree, compiler-core/src/ast.rs and ast/untyped.rs

    Only what the graph looks at; forms it treats alike share a constructor. *)

(** [BitArraySize]. *)
Inductive size := SInt | SVariable (name : text) | SOperator (left right : size) | SBlock (inner : size).
(** [UntypedPattern].  [PInert]: Discard, Int, Float, String, Invalid.  A segment has its size
    options, which are sizes when they come from the parser (parse.rs 4085-4122), and its value.  [PPrefix]: the names of the two sides, if any. *)
Inductive pattern :=
  | PInert
  | PPrefix (prefix rest : option text)
  | PVariable (name : text)
  | PTuple (elements : list pattern)
  | PList (elements : list pattern) (tail : option pattern)
  | PAssign (name : text) (p : pattern)
  | PConstructor (arguments : list pattern)
  | PBitArray (segments : list (list size * pattern)).
(** [UntypedConstant].  [CInert]: Int, Float, String, Invalid, and Var with a module. *)
Inductive constant :=
  | CInert
  | CTodo (message : option constant)
  | CList (elements : list constant) (tail : option constant)
  | CTuple (elements : list constant)
  | CRecord (arguments : option (list constant))
  | CRecordUpdate (base : constant) (arguments : list constant)
  | CVar (name : text)
  | CBitArray (segments : list (list constant * constant))
  | COperator (left right : constant).
(** [UntypedClauseGuard].  [GUnary]: Block, Not, TupleIndex, FieldAccess. *)
Inductive guard :=
  | GInvalid
  | GOperator (left right : guard)
  | GUnary (g : guard)
  | GVar (name : text)
  | GModuleSelect (module : text)
  | GConstant (c : constant).
(** [UntypedExpr].  [EInert]: Int, Float, String; [EMessage]: Todo, Panic; [EUnary]: NegateInt,
    NegateBool, TupleIndex, FieldAccess; [EFn]: the names of its arguments, [None] for discards. *)
Inductive expr :=
  | EInert
  | EMessage (message : option expr)
  | EEcho (e message : option expr)
  | EVar (name : text)
  | ECall (f : expr) (arguments : list expr)
  | EPipeline (es : list expr)
  | ETuple (es : list expr)
  | EBlock (statements : list statement)
  | EOperator (left right : expr)
  | EList (es : list expr) (tail : option expr)
  | EUnary (e : expr)
  | EBitArray (segments : list (expr * list expr))
  | ERecordUpdate (base : expr) (arguments : list expr)
  | EFn (arguments : list (option text)) (body : list statement)
  | ECase (subjects : list expr) (clauses : option (list clause))
with statement :=
  | SExpression (e : expr)
  | SAssignment (p : pattern) (value : expr) (message : option expr)
  | SUse (call : expr) (assignments : list pattern)
  | SAssert (value : expr) (message : option expr)
with clause :=
  | Clause (patterns : list pattern) (alternatives : list (list pattern)) (g : option guard) (then_ : expr).

Record function := Function {
  f_name : text; f_location : span; f_arguments : list (option text); f_body : list statement }.
Record module_constant := ModuleConstant { c_name : text; c_location : span; c_value : constant }.

(** ** [CallGraphBuilder], 24-28 *)
Record builder := Builder {
  names : list (text * option (nat * span));
  nodes : nat;
  edges : list (nat * nat);
  current_function : nat }.
Fixpoint lookup {A} (n : text) (m : list (text * A)) : option A :=
  match m with
  | [] => None
  | (n', a) :: m => if text_eqb n n' then Some a else lookup n m
  end.
Definition with_names (ns : list (text * option (nat * span))) (b : builder) : builder :=
  Builder ns (nodes b) (edges b) (current_function b).

(** [define], 424-426. *)
Definition define (n : text) (b : builder) : builder := with_names ((n, None) :: names b) b.
Definition define_option (n : option text) (b : builder) : builder :=
  match n with Some n => define n b | None => b end.
(** [referenced], 128-141. *)
Definition referenced (n : text) (b : builder) : builder :=
  match lookup n (names b) with
  | Some (Some (target, _)) =>
      Builder (names b) (nodes b) (edges b ++ [(current_function b, target)]) (current_function b)
  | _ => b
  end.

Definition visit_all {A} (f : A -> builder -> builder) (l : list A) (b : builder) : builder :=
  fold_left (fun b a => f a b) l b.
Definition visit_option {A} (f : A -> builder -> builder) (o : option A) (b : builder) : builder :=
  match o with Some a => f a b | None => b end.

(** [bit_array_size], 412-422. *)
Fixpoint bit_array_size (s : size) (b : builder) : builder :=
  match s with
  | SInt => b
  | SVariable n => referenced n b
  | SOperator l r => bit_array_size r (bit_array_size l b)
  | SBlock s => bit_array_size s b
  end.
(** [pattern], 347-410: the options of a segment come before its value. *)
Fixpoint visit_pattern (p : pattern) (b : builder) : builder :=
  match p with
  | PInert => b
  | PPrefix _ rest => define_option rest b
  | PVariable n => define n b
  | PTuple ps => visit_all visit_pattern ps b
  | PList ps tail => visit_option visit_pattern tail (visit_all visit_pattern ps b)
  | PAssign n p => visit_pattern p (define n b)
  | PConstructor ps => visit_all visit_pattern ps b
  | PBitArray segs =>
      fold_left (fun b seg => visit_pattern (snd seg) (visit_all bit_array_size (fst seg) b)) segs b
  end.
(** [constant], 489-543. *)
Fixpoint visit_constant (c : constant) (b : builder) : builder :=
  match c with
  | CInert => b
  | CTodo m => visit_option visit_constant m b
  | CList es tail => visit_option visit_constant tail (visit_all visit_constant es b)
  | CTuple es => visit_all visit_constant es b
  | CRecord None => b
  | CRecord (Some es) => visit_all visit_constant es b
  | CRecordUpdate base es => visit_all visit_constant es (visit_constant base b)
  | CVar n => referenced n b
  | CBitArray segs =>
      fold_left (fun b seg => visit_constant (snd seg) (visit_all visit_constant (fst seg) b)) segs b
  | COperator l r => visit_constant r (visit_constant l b)
  end.
(** [guard], 461-487. *)
Fixpoint visit_guard (g : guard) (b : builder) : builder :=
  match g with
  | GInvalid => b
  | GOperator l r => visit_guard r (visit_guard l b)
  | GUnary g => visit_guard g b
  | GVar n => referenced n b
  | GModuleSelect m => referenced m b
  | GConstant c => visit_constant c b
  end.

(** [expression] 180-345, [statement] 151-178, [statements] 143-149; the clauses of a [case]
    326-343: their alternative patterns are not visited. *)
Fixpoint expression (e : expr) (b : builder) : builder :=
  let statements (ss : list statement) (b : builder) : builder :=
    with_names (names b) (visit_all visit_statement ss b) in
  match e with
  | EInert => b
  | EMessage m => visit_option expression m b
  | EEcho e m => visit_option expression m (visit_option expression e b)
  | EVar n => referenced n b
  | ECall f es => visit_all expression es (expression f b)
  | EPipeline es => visit_all expression es b
  | ETuple es => visit_all expression es b
  | EBlock ss => with_names (names b) (statements ss b)
  | EOperator l r => expression r (expression l b)
  | EList es tail => visit_option expression tail (visit_all expression es b)
  | EUnary e => expression e b
  | EBitArray segs =>
      fold_left (fun b seg => visit_all expression (snd seg) (expression (fst seg) b)) segs b
  | ERecordUpdate base es => visit_all expression es (expression base b)
  | EFn args ss => with_names (names b) (statements ss (visit_all define_option args b))
  | ECase subjects clauses =>
      match clauses with
      | Some cs => visit_all visit_clause cs (visit_all expression subjects b)
      | None => visit_all expression subjects b
      end
  end
with visit_statement (s : statement) (b : builder) : builder :=
  match s with
  | SExpression e => expression e b
  | SAssignment p value message => visit_option expression message (visit_pattern p (expression value b))
  | SUse call ps => visit_all visit_pattern ps (expression call b)
  | SAssert value message => visit_option expression message (expression value b)
  end
with visit_clause (c : clause) (b : builder) : builder :=
  match c with
  | Clause ps _ g then_ =>
      with_names (names b) (expression then_ (visit_option visit_guard g (visit_all visit_pattern ps b)))
  end.
Definition statements (ss : list statement) (b : builder) : builder :=
  with_names (names b) (visit_all visit_statement ss b).

(** [register_module_function_existence] 44-65 and [register_module_const_existence] 69-89. *)
Record duplicate := DuplicateName { location_a : span; location_b : span; duplicate_name : text }.
Definition register (n : text) (l : span) (b : builder) : builder + duplicate :=
  match lookup n (names b) with
  | Some (Some (_, previous)) => inr (DuplicateName l previous n)
  | _ => inl (Builder ((n, Some (nodes b, l)) :: names b) (S (nodes b)) (edges b) (current_function b))
  end.
Fixpoint register_all (ds : list (text * span)) (b : builder) : builder + duplicate :=
  match ds with
  | [] => inl b
  | (n, l) :: ds =>
      match register n l b with
      | inl b => register_all ds b
      | inr e => inr e
      end
  end.

(** [register_references] 102-126 and [register_references_constant] 91-100; [None] is a
    panic. *)
Definition start_at (n : text) (b : builder) : option builder :=
  match lookup n (names b) with
  | Some (Some (i, _)) => Some (Builder (names b) (nodes b) (edges b) i)
  | _ => None
  end.
Definition register_references (f : function) (b : builder) : option builder :=
  match start_at (f_name f) b with
  | Some b' => Some (with_names (names b) (statements (f_body f) (visit_all define_option (f_arguments f) b')))
  | None => None
  end.
Definition register_references_constant (c : module_constant) (b : builder) : option builder :=
  match start_at (c_name c) b with
  | Some b => Some (visit_constant (c_value c) b)
  | None => None
  end.

Inductive definition := DFunction (f : function) | DConstant (c : module_constant).
Definition definitions (fs : list function) (cs : list module_constant) : list definition :=
  map DFunction fs ++ map DConstant cs.
Definition definition_key (d : definition) : text * span :=
  match d with
  | DFunction f => (f_name f, f_location f)
  | DConstant c => (c_name c, c_location c)
  end.
Definition register_definition (d : definition) (b : builder) : option builder :=
  match d with
  | DFunction f => register_references f b
  | DConstant c => register_references_constant c b
  end.
Fixpoint register_definitions (ds : list definition) (b : builder) : option builder :=
  match ds with
  | [] => Some b
  | d :: ds =>
      match register_definition d b with
      | Some b => register_definitions ds b
      | None => None
      end
  end.

(** [take] on the slots of the definitions. *)
Fixpoint take (i : nat) (slots : list (option definition)) : option (definition * list (option definition)) :=
  match slots, i with
  | Some d :: slots, O => Some (d, None :: slots)
  | s :: slots, S i =>
      match take i slots with
      | Some (d, slots) => Some (d, s :: slots)
      | None => None
      end
  | _, _ => None
  end.
Fixpoint take_level (level : list nat) (slots : list (option definition)) :
    option (list definition * list (option definition)) :=
  match level with
  | [] => Some ([], slots)
  | i :: level =>
      match take i slots with
      | Some (d, slots) =>
          match take_level level slots with
          | Some (ds, slots) => Some (d :: ds, slots)
          | None => None
          end
      | None => None
      end
  end.
Fixpoint take_levels (levels : list (list nat)) (slots : list (option definition)) :
    option (list (list definition)) :=
  match levels with
  | [] => Some []
  | level :: levels =>
      match take_level level slots with
      | Some (ds, slots) =>
          match take_levels levels slots with Some dss => Some (ds :: dss) | None => None end
      | None => None
      end
  end.

(** [into_dependency_order], 549-588; [scc nodes edges] is the result of [tarjan_scc]. *)
Inductive outcome := Ordered (groups : list (list definition)) | Duplicate (e : duplicate) | Panic.
Definition empty_builder : builder := Builder [] 0 [] 0.
Definition into_dependency_order (scc : nat -> list (nat * nat) -> list (list nat))
    (fs : list function) (cs : list module_constant) : outcome :=
  let ds := definitions fs cs in
  match register_all (map definition_key ds) empty_builder with
  | inr e => Duplicate e
  | inl b =>
      match register_definitions ds b with
      | None => Panic
      | Some b =>
          match take_levels (scc (nodes b) (edges b)) (map Some ds) with
          | Some groups => Ordered groups
          | None => Panic
          end
      end
  end.
