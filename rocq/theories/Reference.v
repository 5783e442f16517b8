(** What refers to what in a module, compiler-core/src/reference.rs, and the warnings and removals
    that follow from it, [Environment::handle_unused] of compiler-core/src/type_/environment.rs.

    Modelled are all of [ReferenceTracker]'s methods.  A call of one of them is a [call], what it does
    is [perform], and a module is analysed by a list of calls.

    Simplifications: the nodes of the graph are numbered by [nat], without the limit of 32 bits; hash
    maps and sets are lists, and where one is gone through the order is a parameter; the usage of
    local variables is not part of it. *)
From Coq Require Import NArith List Bool Arith.
From Verif Require Import Text.
Import ListNotations.
Local Open Scope nat_scope.
Local Open Scope list_scope.

Local Notation "'let*' x ':=' a 'in' b" :=
  (match a with Some x => b | None => None end) (at level 200, x name, a at level 100, b at level 200).

(** [SrcSpan], src-span/src/lib.rs. *)
Record span := Span { start : N; end_ : N }.

(** [Publicity], ast.rs, 807-842. *)
Inductive publicity := Public | Private | Internal.

(** [ReferenceKind], 15-116. *)
Inductive reference_kind :=
| Qualified (module_alias : text) (module_location : span)
| Unqualified
| Import (alias_location : span)
| Definition_
| Alias.

(** [Reference], 118-122. *)
Record reference := Reference { r_location : span; r_kind : reference_kind }.

(** [ModuleNameReference], 124-183. *)
Inductive module_name_reference :=
| ModuleSelect (location : span)
| AliasedModuleSelect (location : span)
| ModuleImport (module_location : span) (import_end : N)
| AliasedImport (module_location alias_location : span) (alias : text).

(** [LabelSyntax], 198-209, [LabelReference], 187-196, [LabelDefinition], 211-218, and
    [RecordLabel], 220-229. *)
Inductive label_syntax := Longhand | Shorthand.
Record label_reference := LabelReference { lr_location : span; lr_syntax : label_syntax }.
Record label_definition := LabelDefinition { ld_location : span; ld_variant : text }.
Record record_label := RecordLabel { type_module : text; type_name : text; label : text }.

(** [EntityKind], 237-250, and [EntityInformation], 231-235. *)
Inductive entity_kind :=
| Function
| Constant
| Constructor
| Type_
| ImportedModule (module_name : text)
| ModuleAlias (module : text)
| ImportedConstructor (module : text)
| ImportedType (module : text)
| ImportedValue (module : text).
Record information := Information { origin : span; kind : entity_kind }.

(** [EntityLayer], 252-275, and [Entity], 277-281. *)
Inductive layer := LType | LValue | LShadowed | LModule.
Record entity := Entity { name : text; layer_ : layer }.

Definition layer_eqb (a b : layer) : bool :=
  match a, b with
  | LType, LType | LValue, LValue | LShadowed, LShadowed | LModule, LModule => true
  | _, _ => false
  end.
Definition entity_eqb (a b : entity) : bool :=
  text_eqb (name a) (name b) && layer_eqb (layer_ a) (layer_ b).

(** [HashMap], as a list of pairs with no key twice: [get], [insert] and [remove]. *)
Section Maps.
Context {K V : Type} (same : K -> K -> bool).
Fixpoint get (k : K) (m : list (K * V)) : option V :=
  match m with
  | [] => None
  | (k', v) :: m => if same k k' then Some v else get k m
  end.
Definition without (k : K) (m : list (K * V)) : list (K * V) :=
  filter (fun p => negb (same k (fst p))) m.
Definition put (k : K) (v : V) (m : list (K * V)) : list (K * V) := (k, v) :: without k m.
(** [remove(k).is_some()], with what is left. *)
Definition remove (k : K) (m : list (K * V)) : option (list (K * V)) :=
  match get k m with Some _ => Some (without k m) | None => None end.
End Maps.

(** [entry(k).or_default().push(v)]. *)
Definition push {K V : Type} (same : K -> K -> bool) (k : K) (v : V) (m : list (K * list V))
  : list (K * list V) :=
  put same k (match get same k m with Some l => l ++ [v] | None => [v] end) m.

Definition pair_eqb (a b : text * text) : bool :=
  text_eqb (fst a) (fst b) && text_eqb (snd a) (snd b).
Definition label_eqb (a b : record_label) : bool :=
  text_eqb (type_module a) (type_module b) && text_eqb (type_name a) (type_name b)
    && text_eqb (label a) (label b).

(** [bimap::BiMap], as a list of pairs: [get_by_left], [get_by_right] and [insert] with what was
    overwritten, [bimap::Overwritten]. *)
Definition bimap := list (entity * nat).
Definition by_left (e : entity) (m : bimap) : option nat := get entity_eqb e m.
Fixpoint by_right (n : nat) (m : bimap) : option entity :=
  match m with
  | [] => None
  | (e, n') :: m => if Nat.eqb n n' then Some e else by_right n m
  end.
Inductive overwritten :=
| Neither
| OLeft (e : entity) (n : nat)
| ORight (e : entity) (n : nat)
| OPair (e : entity) (n : nat)
| OBoth (l r : entity * nat).
Definition without_right (n : nat) (m : bimap) : bimap := filter (fun p => negb (Nat.eqb n (snd p))) m.
Definition bimap_insert (e : entity) (n : nat) (m : bimap) : overwritten * bimap :=
  let left := by_left e m in
  let m1 := without entity_eqb e m in
  let right := by_right n m1 in
  let m2 := without_right n m1 in
  (match left, right with
   | None, None => Neither
   | None, Some e' => ORight e' n
   | Some n', None => if Nat.eqb n' n then OPair e n' else OLeft e n'
   | Some n', Some e' => OBoth (e, n') (e', n)
   end,
   (e, n) :: m2).

(** [ReferenceTracker], 283-332.  The graph is the number of its nodes and its edges, the last one
    added first. *)
Record tracker := Tracker {
  nodes : nat;
  edges : list (nat * nat);
  entities : bimap;
  current_node : nat;
  public_entities : list entity;
  entity_information : list (entity * information);
  value_references : list ((text * text) * list reference);
  type_references : list ((text * text) * list reference);
  module_references : list (text * list module_name_reference);
  label_references : list (record_label * list label_reference);
  label_definitions : list (record_label * list label_definition);
  module_name_to_node : list (text * nat)
}.

(** [ReferenceTracker::new], 335-337. *)
Definition new : tracker := Tracker 0 [] [] 0 [] [] [] [] [] [] [] [].

Definition set_graph (n : nat) (es : list (nat * nat)) (t : tracker) : tracker :=
  Tracker n es (entities t) (current_node t) (public_entities t) (entity_information t)
    (value_references t) (type_references t) (module_references t) (label_references t)
    (label_definitions t) (module_name_to_node t).
Definition set_entities (b : bimap) (t : tracker) : tracker :=
  Tracker (nodes t) (edges t) b (current_node t) (public_entities t) (entity_information t)
    (value_references t) (type_references t) (module_references t) (label_references t)
    (label_definitions t) (module_name_to_node t).
Definition set_current (n : nat) (t : tracker) : tracker :=
  Tracker (nodes t) (edges t) (entities t) n (public_entities t) (entity_information t)
    (value_references t) (type_references t) (module_references t) (label_references t)
    (label_definitions t) (module_name_to_node t).
Definition set_public (l : list entity) (t : tracker) : tracker :=
  Tracker (nodes t) (edges t) (entities t) (current_node t) l (entity_information t)
    (value_references t) (type_references t) (module_references t) (label_references t)
    (label_definitions t) (module_name_to_node t).
Definition set_information (i : list (entity * information)) (t : tracker) : tracker :=
  Tracker (nodes t) (edges t) (entities t) (current_node t) (public_entities t) i
    (value_references t) (type_references t) (module_references t) (label_references t)
    (label_definitions t) (module_name_to_node t).
Definition set_value_references (r : list ((text * text) * list reference)) (t : tracker) : tracker :=
  Tracker (nodes t) (edges t) (entities t) (current_node t) (public_entities t)
    (entity_information t) r (type_references t) (module_references t) (label_references t)
    (label_definitions t) (module_name_to_node t).
Definition set_type_references (r : list ((text * text) * list reference)) (t : tracker) : tracker :=
  Tracker (nodes t) (edges t) (entities t) (current_node t) (public_entities t)
    (entity_information t) (value_references t) r (module_references t) (label_references t)
    (label_definitions t) (module_name_to_node t).
Definition set_module_references (r : list (text * list module_name_reference)) (t : tracker) : tracker :=
  Tracker (nodes t) (edges t) (entities t) (current_node t) (public_entities t)
    (entity_information t) (value_references t) (type_references t) r (label_references t)
    (label_definitions t) (module_name_to_node t).
Definition set_label_references (r : list (record_label * list label_reference)) (t : tracker) : tracker :=
  Tracker (nodes t) (edges t) (entities t) (current_node t) (public_entities t)
    (entity_information t) (value_references t) (type_references t) (module_references t) r
    (label_definitions t) (module_name_to_node t).
Definition set_label_definitions (r : list (record_label * list label_definition)) (t : tracker) : tracker :=
  Tracker (nodes t) (edges t) (entities t) (current_node t) (public_entities t)
    (entity_information t) (value_references t) (type_references t) (module_references t)
    (label_references t) r (module_name_to_node t).
Definition set_module_nodes (r : list (text * nat)) (t : tracker) : tracker :=
  Tracker (nodes t) (edges t) (entities t) (current_node t) (public_entities t)
    (entity_information t) (value_references t) (type_references t) (module_references t)
    (label_references t) (label_definitions t) r.

(** [StableGraph::add_node]: the node and the graph with it. *)
Definition add_node (t : tracker) : nat * tracker := (nodes t, set_graph (S (nodes t)) (edges t) t).

(** [StableGraph::add_edge]: it panics, [None], when a node does not exist. *)
Definition add_edge (a b : nat) (t : tracker) : option tracker :=
  if (a <? nodes t) && (b <? nodes t) then Some (set_graph (nodes t) ((a, b) :: edges t) t) else None.

(** [neighbors_directed] with [Direction::Outgoing]: the last edge first. *)
Definition neighbors (n : nat) (t : tracker) : list nat :=
  map snd (filter (fun e => Nat.eqb n (fst e)) (edges t)).

(** [get_or_create_node], 339-350. *)
Definition get_or_create_node (n : text) (l : layer) (t : tracker) : nat * tracker :=
  match by_left (Entity n l) (entities t) with
  | Some index => (index, t)
  | None =>
      let '(index, t) := add_node t in
      (index, set_entities (snd (bimap_insert (Entity n l) index (entities t))) t)
  end.

(** [create_node_and_maybe_shadow], 361-382. *)
Definition create_node_and_maybe_shadow (e : entity) (index : nat) (t : tracker) : tracker :=
  let '(o, b) := bimap_insert e index (entities t) in
  let t := set_entities b t in
  match o with
  | Neither => t
  | OLeft e i | ORight e i | OPair e i | OBoth (e, i) _ =>
      match get entity_eqb e (entity_information t) with
      | Some info =>
          let shadowed := Entity (name e) LShadowed in
          let t := set_information (put entity_eqb shadowed info (entity_information t)) t in
          set_entities (snd (bimap_insert shadowed i (entities t))) t
      | None => t
      end
  end.

(** [create_node], 352-359. *)
Definition create_node (n : text) (l : layer) (t : tracker) : nat * tracker :=
  let '(index, t) := add_node t in
  (index, create_node_and_maybe_shadow (Entity n l) index t).

(** [add_reference_edge], 384-391. *)
Definition add_reference_edge (n : text) (l : layer) (t : tracker) : option tracker :=
  let '(target, t) := get_or_create_node n l t in
  add_edge (current_node t) target t.

(** [begin_constant], 393-411. *)
Definition begin_constant (t : tracker) : tracker :=
  let '(index, t) := add_node t in set_current index t.

(** Lines 419-424, 446-451 and 483-488: what is public or internal joins the set. *)
Definition publish (e : entity) (p : publicity) (t : tracker) : tracker :=
  match p with
  | Public | Internal =>
      set_public (if existsb (entity_eqb e) (public_entities t) then public_entities t
                  else e :: public_entities t) t
  | Private => t
  end.
Definition inform (e : entity) (i : information) (t : tracker) : tracker :=
  set_information (put entity_eqb e i (entity_information t)) t.

(** [register_constant], 413-433. *)
Definition register_constant (n : text) (location : span) (p : publicity) (t : tracker) : tracker :=
  let e := Entity n LValue in
  let t := create_node_and_maybe_shadow e (current_node t) t in
  let t := publish e p t in
  inform e (Information location Constant) t.

(** [register_module_name_reference], 665-680. *)
Definition register_module_name_reference (module : text) (r : module_name_reference) (t : tracker)
  : tracker :=
  set_module_references (push text_eqb module r (module_references t)) t.

(** [register_module_reference_by_module_name], 746-758. *)
Definition register_module_reference_by_module_name (n : text) (t : tracker) : option tracker :=
  match get text_eqb n (module_name_to_node t) with
  | Some target => add_edge (current_node t) target t
  | None => Some t
  end.

(** [register_module_reference_from_imported_entity], 582-597. *)
Definition register_module_reference_from_imported_entity (k : entity_kind) (t : tracker)
  : option tracker :=
  match k with
  | ImportedConstructor module | ImportedType module | ImportedValue module =>
      register_module_reference_by_module_name module t
  | Function | Constant | Constructor | Type_ | ImportedModule _ | ModuleAlias _ => Some t
  end.

(** [register_value], 435-463. *)
Definition register_value (n : text) (k : entity_kind) (location : span) (p : publicity) (t : tracker)
  : option tracker :=
  let '(index, t) := create_node n LValue t in
  let t := set_current index t in
  let* t := register_module_reference_from_imported_entity k t in
  let e := Entity n LValue in
  let t := publish e p t in
  Some (inform e (Information location k) t).

(** [set_current_node], 465-467. *)
Definition set_current_node (n : text) (t : tracker) : tracker :=
  let '(index, t) := get_or_create_node n LValue t in set_current index t.

(** [register_type], 469-497. *)
Definition register_type (n : text) (k : entity_kind) (location : span) (p : publicity) (t : tracker)
  : option tracker :=
  let '(index, t) := create_node n LType t in
  let t := set_current index t in
  let* t := register_module_reference_from_imported_entity k t in
  let e := Entity n LType in
  let t := publish e p t in
  Some (inform e (Information location k) t).

(** [register_module], 540-579. *)
Definition register_module (used_name module_name : text) (location module_location : span)
  (alias_location : option span) (t : tracker) : tracker :=
  let '(index, t) := create_node used_name LModule t in
  let t := set_current index t in
  let t := set_module_nodes (put text_eqb module_name (current_node t) (module_name_to_node t)) t in
  let r :=
    match alias_location with
    | Some alias_location => AliasedImport module_location alias_location used_name
    | None => ModuleImport module_location (end_ location)
    end in
  let t := register_module_name_reference module_name r t in
  inform (Entity used_name LModule) (Information location (ImportedModule module_name)) t.

(** [register_aliased_module], 499-538. *)
Definition register_aliased_module (used_name module_name : text)
  (alias_location import_location module_location : span) (t : tracker) : option tracker :=
  let t := register_module used_name module_name import_location module_location (Some alias_location) t in
  let '(index, t) := create_node used_name LModule t in
  let t := set_current index t in
  let* t := register_module_reference_by_module_name module_name t in
  Some (inform (Entity used_name LModule) (Information alias_location (ModuleAlias module_name)) t).

(** [module.split('/').next_back()], 612: what follows the last slash. *)
Fixpoint last_segment (m : text) : text :=
  match m with
  | [] => []
  | c :: r => if existsb (N.eqb 47) m then last_segment r else m
  end.

(** Lines 607-620 and 640-653. *)
Definition module_select (module alias : text) (location : span) : module_name_reference :=
  if text_eqb (last_segment module) alias then ModuleSelect location else AliasedModuleSelect location.

(** [register_value_reference], 599-630. *)
Definition register_value_reference (module n referenced_name : text) (location : span)
  (k : reference_kind) (t : tracker) : option tracker :=
  let* t :=
    match k with
    | Qualified alias module_location =>
        Some (register_module_name_reference module (module_select module alias module_location) t)
    | Import _ | Definition_ => Some t
    | Alias | Unqualified => add_reference_edge referenced_name LValue t
    end in
  Some (set_value_references
          (push pair_eqb (module, n) (Reference location k) (value_references t)) t).

(** [register_type_reference_in_call_graph], 733-735, and [register_type_reference], 632-663. *)
Definition register_type_reference_in_call_graph (n : text) (t : tracker) : option tracker :=
  add_reference_edge n LType t.
Definition register_type_reference (module n referenced_name : text) (location : span)
  (k : reference_kind) (t : tracker) : option tracker :=
  let* t :=
    match k with
    | Qualified alias module_location =>
        Some (register_module_name_reference module (module_select module alias module_location) t)
    | Import _ | Definition_ => Some t
    | Alias | Unqualified => register_type_reference_in_call_graph referenced_name t
    end in
  Some (set_type_references
          (push pair_eqb (module, n) (Reference location k) (type_references t)) t).

(** [register_label_reference], 682-702, and [register_label_definition], 704-724. *)
Definition register_label_reference (type : text * text) (l : text) (location : span)
  (syntax : label_syntax) (t : tracker) : tracker :=
  set_label_references
    (push label_eqb (RecordLabel (fst type) (snd type) l) (LabelReference location syntax)
       (label_references t)) t.
Definition register_label_definition (type : text * text) (l : text) (location : span)
  (variant : text) (t : tracker) : tracker :=
  set_label_definitions
    (push label_eqb (RecordLabel (fst type) (snd type) l) (LabelDefinition location variant)
       (label_definitions t)) t.

(** [register_module_reference_by_alias], 742-744. *)
Definition register_module_reference_by_alias (n : text) (t : tracker) : option tracker :=
  add_reference_edge n LModule t.

(** The calls that are made while a module is analysed. *)
Inductive call :=
| BeginConstant
| RegisterConstant (n : text) (location : span) (p : publicity)
| RegisterValue (n : text) (k : entity_kind) (location : span) (p : publicity)
| SetCurrentNode (n : text)
| RegisterType (n : text) (k : entity_kind) (location : span) (p : publicity)
| RegisterAliasedModule (used_name module_name : text)
    (alias_location import_location module_location : span)
| RegisterModule (used_name module_name : text) (location module_location : span)
| RegisterValueReference (module n referenced_name : text) (location : span) (k : reference_kind)
| RegisterTypeReference (module n referenced_name : text) (location : span) (k : reference_kind)
| RegisterModuleNameReference (module : text) (r : module_name_reference)
| RegisterLabelReference (type : text * text) (l : text) (location : span) (syntax : label_syntax)
| RegisterLabelDefinition (type : text * text) (l : text) (location : span) (variant : text)
| RegisterTypeReferenceInCallGraph (n : text)
| RegisterModuleReferenceByAlias (n : text).

Definition perform (c : call) (t : tracker) : option tracker :=
  match c with
  | BeginConstant => Some (begin_constant t)
  | RegisterConstant n location p => Some (register_constant n location p t)
  | RegisterValue n k location p => register_value n k location p t
  | SetCurrentNode n => Some (set_current_node n t)
  | RegisterType n k location p => register_type n k location p t
  | RegisterAliasedModule u m a i l => register_aliased_module u m a i l t
  | RegisterModule u m l ml => Some (register_module u m l ml None t)
  | RegisterValueReference m n r l k => register_value_reference m n r l k t
  | RegisterTypeReference m n r l k => register_type_reference m n r l k t
  | RegisterModuleNameReference m r => Some (register_module_name_reference m r t)
  | RegisterLabelReference ty l loc s => Some (register_label_reference ty l loc s t)
  | RegisterLabelDefinition ty l loc v => Some (register_label_definition ty l loc v t)
  | RegisterTypeReferenceInCallGraph n => register_type_reference_in_call_graph n t
  | RegisterModuleReferenceByAlias n => register_module_reference_by_alias n t
  end.
Fixpoint perform_all (cs : list call) (t : tracker) : option tracker :=
  match cs with
  | [] => Some t
  | c :: cs => let* t := perform c t in perform_all cs t
  end.
Definition analysed (cs : list call) : option tracker := perform_all cs new.

(** [mark_entity_as_used], 789-802.  What is left to go through shrinks with every step down, so that
    its number is enough [fuel]. *)
Fixpoint mark_entity_as_used (fuel : nat) (t : tracker) (e : entity) (index : nat)
  (unused : list (entity * information)) : list (entity * information) :=
  match fuel with
  | O => unused
  | S fuel =>
      match remove entity_eqb e unused with
      | Some unused =>
          fold_left
            (fun unused node =>
               match by_right node (entities t) with
               | Some e => mark_entity_as_used fuel t e node unused
               | None => unused
               end)
            (neighbors index t) unused
      | None => unused
      end
  end.
Definition mark (t : tracker) (e : entity) (index : nat) (unused : list (entity * information))
  : list (entity * information) :=
  mark_entity_as_used (S (length unused)) t e index unused.

Definition contains_key (k : text * text) (m : list ((text * text) * list reference)) : bool :=
  match get pair_eqb k m with Some _ => true | None => false end.

(** [mark_referenced_imports_as_used], 804-843. *)
Definition mark_referenced_imports_as_used (t : tracker) (e : entity) (index : nat)
  (unused : list (entity * information)) : list (entity * information) :=
  match layer_ e with
  | LModule => unused
  | _ =>
      fold_left
        (fun unused node =>
           match by_right node (entities t) with
           | Some (Entity module LModule) =>
               let is_imported_type := contains_key (module, name e) (type_references t) in
               let is_imported_value := contains_key (module, name e) (value_references t) in
               if is_imported_type || is_imported_value then unused
               else mark t (Entity module LModule) node unused
           | _ => unused
           end)
        (neighbors index t) unused
  end.

(** [unused], 760-787.  [publics] and [all] are the public entities and the entities in the order in
    which the set and the map are gone through. *)
Definition unused (publics : list entity) (all : bimap) (t : tracker) : list (entity * information) :=
  let u :=
    fold_left
      (fun u e =>
         match by_left e (entities t) with
         | Some index => mark t e index u
         | None => u
         end)
      publics (entity_information t) in
  fold_left
    (fun u p =>
       let e := fst p in
       match by_left e (entities t) with
       | None => u
       | Some index =>
           if existsb (entity_eqb e) (public_entities t) then mark t e index u
           else mark_referenced_imports_as_used t e index u
       end)
    all u.

(** The warnings of [handle_unused], type_/error.rs, with what they carry. *)
Inductive warning :=
| UnusedPrivateFunction (location : span) (n : text)
| UnusedPrivateModuleConstant (location : span) (n : text)
| UnusedConstructor (location : span) (imported : bool) (n : text)
| UnusedType (location : span) (imported : bool) (n : text)
| UnusedImportedModule (location : span) (n : text)
| UnusedImportedValue (location : span) (n : text)
| UnusedImportedModuleAlias (location : span) (alias module_name : text).

(** What one unused entity adds in the loop of [handle_unused], environment.rs, 843-911: a position,
    a module, a warning at once, or one that waits, with the module it is about. *)
Record handled := Handled {
  unused_positions : list N;
  unused_modules : list text;
  warnings : list warning;
  unused_imported_items : list (text * warning)
}.
Definition handle_entity (h : handled) (p : entity * information) : handled :=
  let n := name (fst p) in
  let location := origin (snd p) in
  let '(Handled ps ms ws is) := h in
  match kind (snd p) with
  | Function => Handled (start location :: ps) ms (ws ++ [UnusedPrivateFunction location n]) is
  | Constant => Handled (start location :: ps) ms (ws ++ [UnusedPrivateModuleConstant location n]) is
  | Constructor => Handled ps ms (ws ++ [UnusedConstructor location false n]) is
  | Type_ => Handled (start location :: ps) ms (ws ++ [UnusedType location false n]) is
  | ImportedModule module_name =>
      Handled ps (module_name :: ms) (ws ++ [UnusedImportedModule location n]) is
  | ImportedType module => Handled ps ms ws (is ++ [(module, UnusedType location true n)])
  | ImportedConstructor module =>
      Handled ps ms ws (is ++ [(module, UnusedConstructor location true n)])
  | ImportedValue module => Handled ps ms ws (is ++ [(module, UnusedImportedValue location n)])
  | ModuleAlias module =>
      Handled ps ms ws (is ++ [(module, UnusedImportedModuleAlias location n module)])
  end.

(** [handle_unused], environment.rs, 814-920, after the local variables: the warnings and the
    positions.  [us] is the map that [unused] returns, in the order it is gone through. *)
Definition handle_unused (us : list (entity * information)) : list warning * list N :=
  let h := fold_left handle_entity us (Handled [] [] [] []) in
  (warnings h
     ++ map snd (filter (fun p => negb (existsb (text_eqb (fst p)) (unused_modules h)))
                   (unused_imported_items h)),
   unused_positions h).
