(** Model of compiler-core/src/type_/fields.rs. *)
From Coq Require Import Bool List Arith.
From Verif Require Import Text.
Import ListNotations.

(** [ImplicitCallArgOrigin] and [CallArg], compiler-core/src/ast.rs 1669-1704; a
    location is a pair of offsets. *)
Inductive implicit_origin := Use | Pipe | PatternFieldSpread | IncorrectArityUse | RecordUpdate.
Record call_arg (A : Type) := CallArg {
  label : option text;
  location : nat * nat;
  value : A;
  implicit : option implicit_origin
}.
Arguments CallArg {A}. Arguments label {A}. Arguments location {A}. Arguments value {A}. Arguments implicit {A}.
Definition is_implicit {A} (a : call_arg A) : bool := match implicit a with Some _ => true | None => false end.
Definition is_use_implicit_callback {A} (a : call_arg A) : bool :=
  match implicit a with Some Use | Some IncorrectArityUse => true | _ => false end.
Definition is_labelled {A} (a : call_arg A) : bool := match label a with Some _ => true | None => false end.

(** [FieldMap], lines 11-17.  The map is an association list; a key occurs once. *)
Record field_map := FieldMap { arity : nat; fields : list (text * nat) }.

Fixpoint get {A} (fields : list (text * A)) (l : text) : option A :=
  match fields with
  | [] => None
  | (k, p) :: fields => if text_eqb k l then Some p else get fields l
  end.
Fixpoint contains (labels : list text) (l : text) : bool :=
  match labels with [] => false | k :: labels => text_eqb k l || contains labels l end.

Inductive error :=
| IncorrectArity (labels : list text) (expected given : nat)
| PositionalArgumentAfterLabelled (location : nat * nat)
| DuplicateArgument (location : nat * nat) (label : text)
| UnknownLabels (valid : list text) (unknown : list (text * (nat * nat))) (supplied : list text)
| DuplicateField (location : nat * nat) (label : text)
| UnlabelledAfterLabelled (location : nat * nat).

(** [Panicked]: an index out of bounds. *)
Inductive outcome (A : Type) := Fine (a : A) | Failed (e : error) | Panicked.
Arguments Fine {A}. Arguments Failed {A}. Arguments Panicked {A}.

(** [missing_labels], lines 164-199.  [sorted_by_key] is insertion sort, stable. *)
Fixpoint insert_sorted (f : text * nat) (l : list (text * nat)) : list (text * nat) :=
  match l with
  | [] => [f]
  | g :: r => if Nat.leb (snd f) (snd g) then f :: l else g :: insert_sorted f r
  end.
Definition sorted_by_position (l : list (text * nat)) : list (text * nat) := fold_right insert_sorted [] l.
Definition min_list (l : list nat) : option nat :=
  match l with [] => None | x :: l => Some (fold_right Nat.min x l) end.
Fixpoint explicit_labels {A} (args : list (call_arg A)) : list text :=
  match args with
  | [] => []
  | a :: args => match label a with Some l => l :: explicit_labels args | None => explicit_labels args end
  end.
Definition missing_labels {A} (fm : field_map) (args : list (call_arg A)) : list text :=
  match min_list (map snd (fields fm)) with
  | None => []
  | Some positional =>
      let given := length (filter (fun a => negb (is_labelled a) && negb (is_use_implicit_callback a)) args) in
      map fst
        (skipn (given - positional)
           (sorted_by_position (filter (fun f => negb (contains (explicit_labels args) (fst f))) (fields fm))))
  end.

(** The loop of lines 69-84: the location of a positional argument after a labelled
    one. *)
Fixpoint positional_after_labelled {A} (seen : bool) (args : list (call_arg A)) : option (nat * nat) :=
  match args with
  | [] => None
  | a :: args =>
      match label a with
      | Some _ => positional_after_labelled true args
      | None =>
          if seen && negb (is_implicit a) then Some (location a)
          else positional_after_labelled seen args
      end
  end.

(** [Vec::remove] of an index in bounds, [Vec::insert]. *)
Fixpoint remove_at {A} (i : nat) (l : list A) : list A :=
  match l, i with
  | [], _ => []
  | _ :: l, O => l
  | x :: l, S i => x :: remove_at i l
  end.
Fixpoint insert_at {A} (i : nat) (x : A) (l : list A) : option (list A) :=
  match i, l with
  | O, _ => Some (x :: l)
  | S _, [] => None
  | S i, y :: l => option_map (cons y) (insert_at i x l)
  end.

(** The loop of lines 92-130, [i] counting down. *)
Record collected (A : Type) := Collected {
  arguments : list (call_arg A);
  seen_labels : list text;
  labelled_arguments : list (nat * call_arg A);
  unknown_labels : list (text * (nat * nat))
}.
Arguments Collected {A}. Arguments arguments {A}. Arguments seen_labels {A}.
Arguments labelled_arguments {A}. Arguments unknown_labels {A}.

Fixpoint collect_labelled {A} (fm : field_map) (i : nat) (c : collected A) : outcome (collected A) :=
  match i with
  | O => Fine c
  | S i =>
      match nth_error (arguments c) i with
      | None => Panicked
      | Some a =>
          match label a with
          | None => collect_labelled fm i c
          | Some l =>
              match get (fields fm) l with
              | None =>
                  collect_labelled fm i
                    (Collected (arguments c) (seen_labels c) (labelled_arguments c)
                       (unknown_labels c ++ [(l, location a)]))
              | Some p =>
                  if contains (seen_labels c) l then Failed (DuplicateArgument (location a) l)
                  else
                    collect_labelled fm i
                      (Collected (remove_at i (arguments c)) (l :: seen_labels c)
                         ((p, a) :: labelled_arguments c) (unknown_labels c))
              end
          end
      end
  end.

(** The loop of lines 133-137: [count] more indices from [i]. *)
Fixpoint take_position {A} (i : nat) (l : list (nat * A)) : option A :=
  match l with
  | [] => None
  | (p, a) :: l => if Nat.eqb p i then Some a else take_position i l
  end.
Fixpoint reinsert {A} (count i : nat) (labelled : list (nat * A)) (args : list A) : option (list A) :=
  match count with
  | O => Some args
  | S count =>
      match take_position i labelled with
      | None => reinsert count (S i) labelled args
      | Some a =>
          match insert_at i a args with
          | None => None
          | Some args => reinsert count (S i) labelled args
          end
      end
  end.

(** [reorder], lines 45-151.  The locations and context of the arity error are left
    out.  The labels listed by [UnknownLabels] come in no particular order in the code
    (they are hash maps' keys). *)
Definition reorder {A} (fm : field_map) (args : list (call_arg A)) : outcome (list (call_arg A)) :=
  if negb (Nat.eqb (arity fm) (length args)) then
    Failed (IncorrectArity (missing_labels fm args) (arity fm) (length args))
  else
    match positional_after_labelled false args with
    | Some loc => Failed (PositionalArgumentAfterLabelled loc)
    | None =>
        match collect_labelled fm (length args) (Collected args [] [] []) with
        | Failed e => Failed e
        | Panicked => Panicked
        | Fine c =>
            match reinsert (length args) 0 (labelled_arguments c) (arguments c) with
            | None => Panicked
            | Some result =>
                match unknown_labels c with
                | [] => Fine result
                | _ :: _ => Failed (UnknownLabels (map fst (fields fm)) (unknown_labels c) (seen_labels c))
                end
            end
        end
    end.

(** [FieldMapBuilder], lines 209-262. *)
Record builder := Builder { index : nat; any_labels : bool; map_so_far : field_map }.
Definition new_builder (size : nat) : builder := Builder 0 false (FieldMap size []).

(** [add], [labelled], [unlabelled], lines 227-257, and [FieldMap::insert], lines
    30-35, which overwrites even when it fails.  The index only grows on success. *)
Definition insert_field (fields : list (text * nat)) (l : text) (i : nat) : list (text * nat) :=
  (l, i) :: filter (fun f => negb (text_eqb (fst f) l)) fields.
Definition add (b : builder) (l : option text) (loc : nat * nat) : builder * option error :=
  let fm := map_so_far b in
  match l with
  | Some l =>
      let fm' := FieldMap (arity fm) (insert_field (fields fm) l (index b)) in
      match get (fields fm) l with
      | Some _ => (Builder (index b) (any_labels b) fm', Some (DuplicateField loc l))
      | None => (Builder (S (index b)) true fm', None)
      end
  | None =>
      if any_labels b then (b, Some (UnlabelledAfterLabelled loc))
      else (Builder (S (index b)) (any_labels b) fm, None)
  end.
(** [finish] and [into_option], lines 37-43, 259-261. *)
Definition finish (b : builder) : option field_map :=
  match fields (map_so_far b) with [] => None | _ :: _ => Some (map_so_far b) end.

(** Every parameter in turn, going on after an error: compiler-core/src/analyse.rs
    1618-1629. *)
Fixpoint add_all (b : builder) (params : list (option text * (nat * nat))) : builder * list error :=
  match params with
  | [] => (b, [])
  | (l, loc) :: params =>
      let '(b, e) := add b l loc in
      let '(b, es) := add_all b params in
      (b, match e with Some e => e :: es | None => es end)
  end.
Definition field_map_of (params : list (option text * (nat * nat))) : option field_map * list error :=
  let '(b, es) := add_all (new_builder (length params)) params in (finish b, es).
