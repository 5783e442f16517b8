(** What the tracker of references is to know, told by a ledger that writes down every call and
    forgets nothing.  Of the model only the vocabulary of the calls is used. *)
From Coq Require Import NArith List Bool Arith.
From Verif Require Import Text Reference.
Import ListNotations.
Local Open Scope nat_scope.
Local Open Scope list_scope.

(** Types, values and modules have names of their own. *)
Inductive sort := SType | SValue | SModule.
Definition sort_eqb (a b : sort) : bool :=
  match a, b with SType, SType | SValue, SValue | SModule, SModule => true | _, _ => false end.

(** What is known of an item: nothing when its name has only been referred to, that it is a constant
    whose value is being looked at, or what it is and where. *)
Inductive knowledge :=
| Stranger
| Begun
| Known (k : entity_kind) (where_ : span).
Record item := Item { i_name : text; i_sort : sort; i_known : knowledge; i_public : bool }.

(** Items are numbered as they come.  [refs] are the pairs of an item and one that it refers to, the
    last one first.  [holder] is the item that is being looked at, [scope] what a name stands for and
    [imports] the item of the import of a module, by the name of the module. *)
Record ledger := Ledger {
  items : list item;
  refs : list (nat * nat);
  holder : option nat;
  scope : text -> sort -> option nat;
  imports : text -> option nat
}.
Definition blank : ledger := Ledger [] [] None (fun _ _ => None) (fun _ => None).

Definition item_at (l : ledger) (i : nat) (it : item) : Prop := nth_error (items l) i = Some it.

Definition in_scope (n : text) (s : sort) (i : nat) (l : ledger) : ledger :=
  Ledger (items l) (refs l) (holder l)
    (fun n' s' => if text_eqb n n' && sort_eqb s s' then Some i else scope l n' s') (imports l).
Definition new_item (it : item) (l : ledger) : ledger :=
  Ledger (items l ++ [it]) (refs l) (holder l) (scope l) (imports l).
Definition held_by (i : nat) (l : ledger) : ledger :=
  Ledger (items l) (refs l) (Some i) (scope l) (imports l).
Definition refer_to (j : nat) (l : ledger) : ledger :=
  match holder l with
  | Some i => Ledger (items l) ((i, j) :: refs l) (holder l) (scope l) (imports l)
  | None => l
  end.
Definition imports_as (m : text) (i : nat) (l : ledger) : ledger :=
  Ledger (items l) (refs l) (holder l) (scope l)
    (fun m' => if text_eqb m m' then Some i else imports l m').

Definition exposed (p : publicity) : bool := match p with Private => false | _ => true end.

(** A new item takes the name and is the one looked at. *)
Definition announce (n : text) (s : sort) (k : entity_kind) (where_ : span) (p : publicity) (l : ledger)
  : ledger :=
  let i := length (items l) in
  held_by i (in_scope n s i (new_item (Item n s (Known k where_) (exposed p)) l)).
(** A reference by name; a name nobody knows becomes a stranger. *)
Definition mention (n : text) (s : sort) (l : ledger) : ledger :=
  match scope l n s with
  | Some j => refer_to j l
  | None =>
      let j := length (items l) in
      refer_to j (in_scope n s j (new_item (Item n s Stranger false) l))
  end.
(** What is imported from a module refers to its import. *)
Definition mention_import (m : text) (l : ledger) : ledger :=
  match imports l m with Some j => refer_to j l | None => l end.
Definition source (k : entity_kind) : option text :=
  match k with
  | ImportedConstructor m | ImportedType m | ImportedValue m => Some m
  | _ => None
  end.
Definition announce_from (n : text) (s : sort) (k : entity_kind) (where_ : span) (p : publicity)
  (l : ledger) : ledger :=
  let l := announce n s k where_ p l in
  match source k with Some m => mention_import m l | None => l end.
Fixpoint set_nth {A} (i : nat) (x : A) (l : list A) : list A :=
  match l, i with
  | [], _ => []
  | _ :: l, O => x :: l
  | y :: l, S i => y :: set_nth i x l
  end.
Definition finish (n : text) (where_ : span) (p : publicity) (l : ledger) : ledger :=
  match holder l with
  | Some i =>
      in_scope n SValue i
        (Ledger (set_nth i (Item n SValue (Known Constant where_) (exposed p)) (items l))
           (refs l) (holder l) (scope l) (imports l))
  | None => l
  end.
Definition by_name (k : reference_kind) : bool :=
  match k with Unqualified | Alias => true | _ => false end.

Definition write (c : call) (l : ledger) : ledger :=
  match c with
  | BeginConstant => held_by (length (items l)) (new_item (Item [] SValue Begun false) l)
  | RegisterConstant n where_ p => finish n where_ p l
  | RegisterValue n k where_ p => announce_from n SValue k where_ p l
  | RegisterType n k where_ p => announce_from n SType k where_ p l
  | SetCurrentNode n => match scope l n SValue with Some i => held_by i l | None => l end
  | RegisterModule u m where_ _ =>
      imports_as m (length (items l)) (announce u SModule (ImportedModule m) where_ Private l)
  | RegisterAliasedModule u m alias_where where_ _ =>
      let i := length (items l) in
      refer_to i
        (announce u SModule (ModuleAlias m) alias_where Private
           (imports_as m i (announce u SModule (ImportedModule m) where_ Private l)))
  | RegisterValueReference _ _ n _ k => if by_name k then mention n SValue l else l
  | RegisterTypeReference _ _ n _ k => if by_name k then mention n SType l else l
  | RegisterTypeReferenceInCallGraph n => mention n SType l
  | RegisterModuleReferenceByAlias n => mention n SModule l
  | RegisterModuleNameReference _ _ | RegisterLabelReference _ _ _ _
  | RegisterLabelDefinition _ _ _ _ => l
  end.
Definition written (cs : list call) : ledger := fold_left (fun l c => write c l) cs blank.

(** ** What is used *)

Definition imported_kind (k : entity_kind) : bool :=
  match source k with Some _ => true | None => false end.
Definition defined_kind (k : entity_kind) : bool :=
  match k with Function | Constant | Constructor | Type_ => true | _ => false end.
Definition defined_item (it : item) : bool :=
  match i_known it with Known k _ => defined_kind k | Begun => true | Stranger => false end.
Definition imported_item (it : item) : bool :=
  match i_known it with Known k _ => imported_kind k | _ => false end.

(** What can be seen from outside is used, a module is that any definition refers to, and everything
    that something used refers to. *)
Inductive used (l : ledger) : nat -> Prop :=
| used_public i it : item_at l i it -> i_public it = true -> used l i
| used_module i it k where_ j jt :
    item_at l i it -> i_known it = Known k where_ -> defined_kind k = true -> In (i, j) (refs l) ->
    item_at l j jt -> i_sort jt = SModule -> used l j
| used_reference i j : used l i -> In (i, j) (refs l) -> used l j.

(** ** How the tracker is called *)

(** A name can be taken when it is free or stands for something imported. *)
Definition can_take (n : text) (s : sort) (l : ledger) : Prop :=
  match scope l n s with
  | None => True
  | Some j => exists it, item_at l j it /\ imported_item it = true
  end.
Definition definition_held (l : ledger) : Prop :=
  exists i it, holder l = Some i /\ item_at l i it /\ defined_item it = true.
Definition fits (k : entity_kind) (s : sort) : bool :=
  match k, s with
  | (Function | Constructor | ImportedConstructor _ | ImportedValue _), SValue => true
  | (Type_ | ImportedType _), SType => true
  | _, _ => false
  end.

(** Names are registered before they are referred to, only names that are imported are taken over,
    what is imported is private, and only definitions refer to anything. *)
Definition proper (c : call) (l : ledger) : Prop :=
  match c with
  | BeginConstant => True
  | RegisterConstant n _ _ =>
      can_take n SValue l
      /\ exists i it, holder l = Some i /\ item_at l i it /\ i_known it = Begun
  | RegisterValue n k _ p =>
      fits k SValue = true /\ (imported_kind k = true -> exposed p = false) /\ can_take n SValue l
  | RegisterType n k _ p =>
      fits k SType = true /\ (imported_kind k = true -> exposed p = false) /\ can_take n SType l
  | SetCurrentNode n =>
      exists i it, scope l n SValue = Some i /\ item_at l i it /\ defined_item it = true
  | RegisterModule u _ _ _ | RegisterAliasedModule u _ _ _ _ => scope l u SModule = None
  | RegisterValueReference _ _ _ _ k | RegisterTypeReference _ _ _ _ k =>
      by_name k = true -> definition_held l
  | RegisterTypeReferenceInCallGraph _ | RegisterModuleReferenceByAlias _ => definition_held l
  | RegisterModuleNameReference _ _ | RegisterLabelReference _ _ _ _
  | RegisterLabelDefinition _ _ _ _ => True
  end.
Fixpoint proper_from (cs : list call) (l : ledger) : Prop :=
  match cs with
  | [] => True
  | c :: cs => proper c l /\ proper_from cs (write c l)
  end.
Definition orderly (cs : list call) : Prop := proper_from cs blank.

(** No name is taken over twice: two items of a name that no longer stand for it are the same. *)
Definition overtaken (l : ledger) (n : text) (i : nat) : Prop :=
  exists it, item_at l i it /\ i_name it = n /\ i_known it <> Begun /\ scope l n (i_sort it) <> Some i.
Definition taken_over_once (l : ledger) : Prop :=
  forall n i j, overtaken l n i -> overtaken l n j -> i = j.

(** A reference to a thing of a module was recorded. *)
Definition recorded (cs : list call) (m n : text) : Prop :=
  exists r where_ k,
    In (RegisterValueReference m n r where_ k) cs \/ In (RegisterTypeReference m n r where_ k) cs.

(** The recorded references tell what is imported from a module from what refers to it otherwise:
    references that are recorded under the name that the module goes by and the name of the item. *)
Definition lists_tell (cs : list call) : Prop :=
  let l := written cs in
  forall i it j jt,
    item_at l i it -> item_at l j jt -> In (i, j) (refs l) ->
    i_sort it <> SModule -> i_public it = false ->
    i_sort jt = SModule -> scope l (i_name jt) SModule = Some j ->
    (recorded cs (i_name jt) (i_name it) <-> imported_item it = true).

(** What is shown of an unused thing: its name, what it is and where. *)
Definition shown (p : entity * information) : text * entity_kind * span :=
  (name (fst p), kind (snd p), origin (snd p)).
Definition shows (l : ledger) (i : nat) (x : text * entity_kind * span) : Prop :=
  exists it k where_, item_at l i it /\ i_known it = Known k where_ /\ x = (i_name it, k, where_).

(** ** References that were recorded *)

Definition value_references_to (m n : text) (c : call) : list reference :=
  match c with
  | RegisterValueReference m' n' _ where_ k =>
      if text_eqb m' m && text_eqb n' n then [Reference where_ k] else []
  | _ => []
  end.
Definition type_references_to (m n : text) (c : call) : list reference :=
  match c with
  | RegisterTypeReference m' n' _ where_ k =>
      if text_eqb m' m && text_eqb n' n then [Reference where_ k] else []
  | _ => []
  end.
Definition ends_in (m alias : text) : Prop :=
  ~ In 47%N alias /\ (m = alias \/ exists before, m = before ++ 47%N :: alias).
(** What a call says of where the name of a module is written. *)
Inductive writes_module (m : text) : call -> module_name_reference -> Prop :=
| writes_import u where_ mwhere :
    writes_module m (RegisterModule u m where_ mwhere) (ModuleImport mwhere (end_ where_))
| writes_aliased u awhere where_ mwhere :
    writes_module m (RegisterAliasedModule u m awhere where_ mwhere) (AliasedImport mwhere awhere u)
| writes_value n r where_ alias awhere :
    ends_in m alias ->
    writes_module m (RegisterValueReference m n r where_ (Qualified alias awhere)) (ModuleSelect awhere)
| writes_value_aliased n r where_ alias awhere :
    ~ ends_in m alias ->
    writes_module m (RegisterValueReference m n r where_ (Qualified alias awhere))
      (AliasedModuleSelect awhere)
| writes_type n r where_ alias awhere :
    ends_in m alias ->
    writes_module m (RegisterTypeReference m n r where_ (Qualified alias awhere)) (ModuleSelect awhere)
| writes_type_aliased n r where_ alias awhere :
    ~ ends_in m alias ->
    writes_module m (RegisterTypeReference m n r where_ (Qualified alias awhere))
      (AliasedModuleSelect awhere)
| writes_name r : writes_module m (RegisterModuleNameReference m r) r.
(** The list is what the calls say, in their order. *)
Inductive told {A} (says : call -> A -> Prop) : list call -> list A -> Prop :=
| told_nothing : told says [] []
| told_silent c cs l : (forall a, ~ says c a) -> told says cs l -> told says (c :: cs) l
| told_one c cs a l : says c a -> told says cs l -> told says (c :: cs) (a :: l).
Definition label_references_to (type : text * text) (f : text) (c : call) : list label_reference :=
  match c with
  | RegisterLabelReference (m, n) f' where_ s =>
      if text_eqb m (fst type) && text_eqb n (snd type) && text_eqb f' f
      then [LabelReference where_ s] else []
  | _ => []
  end.
Definition label_definitions_of (type : text * text) (f : text) (c : call) : list label_definition :=
  match c with
  | RegisterLabelDefinition (m, n) f' where_ v =>
      if text_eqb m (fst type) && text_eqb n (snd type) && text_eqb f' f
      then [LabelDefinition where_ v] else []
  | _ => []
  end.

(** ** Warnings *)

(** The module that something was imported from. *)
Definition from_module (k : entity_kind) : option text :=
  match k with
  | ImportedConstructor m | ImportedType m | ImportedValue m | ModuleAlias m => Some m
  | _ => None
  end.
Definition warns (x : text * entity_kind * span) : warning :=
  let '(n, k, where_) := x in
  match k with
  | Function => UnusedPrivateFunction where_ n
  | Constant => UnusedPrivateModuleConstant where_ n
  | Constructor => UnusedConstructor where_ false n
  | ImportedConstructor _ => UnusedConstructor where_ true n
  | Type_ => UnusedType where_ false n
  | ImportedType _ => UnusedType where_ true n
  | ImportedModule _ => UnusedImportedModule where_ n
  | ImportedValue _ => UnusedImportedValue where_ n
  | ModuleAlias m => UnusedImportedModuleAlias where_ n m
  end.
(** The import that something came with is among what is unused. *)
Definition goes_with_import (us : list (text * entity_kind * span)) (x : text * entity_kind * span)
  : Prop :=
  exists m n where_,
    from_module (snd (fst x)) = Some m /\ In (n, ImportedModule m, where_) us.
(** Code for it is generated: functions, constants and types. *)
Definition has_code (k : entity_kind) : bool :=
  match k with Function | Constant | Type_ => true | _ => false end.

(** ** No constant is registered before one was begun *)
Definition constants_begun (cs : list call) : Prop :=
  forall before n w p after, cs = before ++ RegisterConstant n w p :: after -> In BeginConstant before.
