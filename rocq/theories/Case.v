(** Compiling a [case] expression to a decision tree.  Model of
    compiler-core/src/exhaustiveness.rs 100-955 and 2036-3705, with the bit array tests of
    Bits.v.

    Modelled: the pattern arena with its in place updates, the branches and what is moved
    to their bodies, the choice of the pivot, the splitting of the branches with its string
    prefix and bit array rules, the decision tree, the diagnostics.

    Not modelled: source locations; links between type variables ([collapse_links]: the
    types here have none), so that two variables are equal when their ids are; floats other
    than as the 64 bits of their value.  The prelude's [Int], [Float], [String], [BitArray]
    and [List] are types of their own.  Hash maps and sets are lists; the trie of prefixes
    is the list of its entries in the order of their insertion, which only shows in the
    order of new arena entries. *)
From Coq Require Import ZArith NArith Bool List.
From Verif Require Import Text Strings Bits.
Import ListNotations.

(** The result of a computation that may panic. *)
Inductive out (A : Type) : Type := Done (a : A) | Panic | OutOfFuel.
Arguments Done {A}. Arguments Panic {A}. Arguments OutOfFuel {A}.
Definition bind {A B} (m : out A) (k : A -> out B) : out B :=
  match m with Done a => k a | Panic => Panic | OutOfFuel => OutOfFuel end.
Notation "'let*' x ':=' m 'in' k" := (bind m (fun x => k)) (at level 200, x name, right associativity).
Notation "'let*' ' x ':=' m 'in' k" := (bind m (fun x => k)) (at level 200, x strict pattern, right associativity).

(** ** Types *)

(** [Type], compiler-core/src/type_.rs, as [Variable::branch_mode] (911-956) sees it: what
    has patterns of its own, functions and type variables. *)
Inductive ctype :=
  | CInt | CFloat | CString | CBitArray
  | CFn | CTypeVar | CGeneric (id : N)
  | CList (inner : ctype)
  | CTuple (elements : list ctype)
  | CNamed (module name : text) (arguments : list ctype) (inferred_variant : option nat).

(** [TypeValueConstructor] and [TypeVariantConstructors]; the parts of [Environment] that
    are used. *)
Record constructor := Constructor { c_name : text; c_parameters : list (option text * ctype) }.
Record type_variants := TypeVariants {
  tv_opaque : bool; tv_parameters : list N; tv_variants : list constructor }.
Record environment := Environment {
  current_module : text;
  get_constructors_for_type : text -> text -> option type_variants }.

(** [ConstructorSpecialiser], 3354-3472. *)
Fixpoint specialised_type (s : list (N * ctype)) (id : N) : option ctype :=
  match s with
  | [] => None
  | (i, t) :: s => if (i =? id)%N then Some t else specialised_type s id
  end.
Fixpoint specialise_type (s : list (N * ctype)) (t : ctype) : ctype :=
  match t with
  | CGeneric id => match specialised_type s id with Some t => t | None => t end
  | CList t => CList (specialise_type s t)
  | CTuple ts => CTuple (map (specialise_type s) ts)
  | CNamed m n args i => CNamed m n (map (specialise_type s) args) i
  | CInt | CFloat | CString | CBitArray | CFn | CTypeVar => t
  end.
Definition specialise_constructor (s : list (N * ctype)) (c : constructor) : constructor :=
  Constructor (c_name c) (map (fun p => (fst p, specialise_type s (snd p))) (c_parameters c)).
Definition specialise_constructors (v : type_variants) (args : list ctype)
    (current type_module : text) : list constructor :=
  if tv_opaque v && negb (text_eqb current type_module) then []
  else map (specialise_constructor (combine (tv_parameters v) args)) (tv_variants v).

(** [BranchMode] 870-905 and [Variable::branch_mode] 910-956. *)
Inductive branch_mode :=
  | Infinite
  | MTuple (elements : list ctype)
  | MList (inner : ctype)
  | MNamed (constructors : list constructor) (inferred_variant : option nat).
Definition mode_of (env : environment) (t : ctype) : out branch_mode :=
  match t with
  | CFn | CTypeVar | CGeneric _ | CInt | CFloat | CString | CBitArray => Done Infinite
  | CList t => Done (MList t)
  | CTuple ts => Done (MTuple ts)
  | CNamed m n args i =>
      match get_constructors_for_type env m n with
      | Some v => Done (MNamed (specialise_constructors v args (current_module env) m) i)
      | None => Panic
      end
  end.
Definition usize_max : N := 18446744073709551615.
Definition branching_factor (m : branch_mode) : N :=
  match m with
  | Infinite => usize_max
  | MTuple ts => N.of_nat (length ts)
  | MList _ => 2
  | MNamed cs _ => N.of_nat (length cs)
  end.
Definition is_infinite (m : branch_mode) : bool := match m with Infinite => true | _ => false end.

(** ** Variables, patterns, checks *)

(** [Variable], 829-832. *)
Record cvar := Var { id : nat; var_type : ctype }.
Definition same_variable (a b : cvar) : bool := Nat.eqb (id a) (id b).

(** [Pattern], 497-543.  [P] is how a pattern refers to another one: an index of the arena
    in the code. *)
Inductive pattern (P : Type) :=
  | ADiscard
  | AInt (z : Z)
  | AFloat (f : N)
  | AString (s : text)
  | AStringPrefix (prefix : text) (prefix_name : option text) (rest : P)
  | AStringPrefixSlice (prefix : text) (prefix_name rest_name : option text)
  | AAssign (name : text) (pattern : P)
  | AVariable (name : text)
  | ATuple (elements : list P)
  | AVariant (index : nat) (used_name name : text) (module : option text) (fields : list P)
  | ANonEmptyList (first rest : P)
  | AEmptyList
  | ABitArray (tests : list test).
Arguments ADiscard {P}. Arguments AInt {P}. Arguments AFloat {P}. Arguments AString {P}.
Arguments AStringPrefix {P}. Arguments AStringPrefixSlice {P}. Arguments AAssign {P}.
Arguments AVariable {P}. Arguments ATuple {P}. Arguments AVariant {P}.
Arguments ANonEmptyList {P}. Arguments AEmptyList {P}. Arguments ABitArray {P}.

(** [BoundValue] 397-427, [Body] 380-394, [BranchGuard] 147-150, [PatternCheck] 650-653 (a
    pair), [Branch] 127-145. *)
Inductive bound_value :=
  | BVariable (v : cvar)
  | BLiteralString (s : text)
  | BLiteralInt (z : Z)
  | BLiteralFloat (f : text)
  | BBitArraySlice (bit_array : cvar) (read : read_action)
  | BStringSlice (subject : cvar) (prefix : text).
Record body := Body { body_bindings : list (text * bound_value); body_clause : nat }.
Record branch_guard := BranchGuard { guard_clause : nat; uses_pattern_bindings : bool }.
Record branch (P : Type) := Branch {
  clause_index : nat; alternative_index : nat;
  checks : list (cvar * P);
  guard : option branch_guard;
  branch_body : body }.
Arguments Branch {P}. Arguments clause_index {P}. Arguments alternative_index {P}.
Arguments checks {P}. Arguments guard {P}. Arguments branch_body {P}.

(** [Body::assign] and its siblings, 439-484. *)
Definition assign (name : text) (v : bound_value) (b : body) : body :=
  Body (body_bindings b ++ [(name, v)]) (body_clause b).
Definition with_checks {P} (b : branch P) (cs : list (cvar * P)) : branch P :=
  Branch (clause_index b) (alternative_index b) cs (guard b) (branch_body b).
Definition add_checks {P} (b : branch P) (cs : list (cvar * P)) : branch P := with_checks b (checks b ++ cs).

(** [Branch::pop_check_on_var], 171-174. *)
Fixpoint pop_check {P} (v : cvar) (cs : list (cvar * P)) : option ((cvar * P) * list (cvar * P)) :=
  match cs with
  | [] => None
  | c :: cs =>
      if same_variable (fst c) v then Some (c, cs)
      else match pop_check v cs with Some (d, cs) => Some (d, c :: cs) | None => None end
  end.

(** [RuntimeCheck] 672-704, [RuntimeCheckKind] 768-777, [VariantMatch] 790-801. *)
Inductive variant_match :=
  | ExplicitlyMatchedOn (used_name name : text) (module : option text)
  | NeverExplicitlyMatchedOn (name : text).
Inductive check :=
  | IsInt (z : Z)
  | IsFloat (f : N)
  | IsString (s : text)
  | IsStringPrefix (prefix : text) (rest : cvar)
  | IsTuple (size : nat) (elements : list cvar)
  | IsBitArray (test : test)
  | IsVariant (match_ : variant_match) (index : nat) (labels : list (nat * text)) (fields : list cvar)
  | IsNonEmptyList (first rest : cvar)
  | IsEmptyList.
Inductive kind :=
  | KInt (z : Z) | KFloat (f : N) | KString (s : text) | KStringPrefix (prefix : text)
  | KTuple (size : nat) | KVariant (index : nat) | KEmptyList | KNonEmptyList.
Definition kind_eqb (a b : kind) : bool :=
  match a, b with
  | KInt x, KInt y => (x =? y)%Z
  | KFloat x, KFloat y => (x =? y)%N
  | KString x, KString y => text_eqb x y
  | KStringPrefix x, KStringPrefix y => text_eqb x y
  | KTuple x, KTuple y => Nat.eqb x y
  | KVariant x, KVariant y => Nat.eqb x y
  | KEmptyList, KEmptyList => true
  | KNonEmptyList, KNonEmptyList => true
  | _, _ => false
  end.

(** [RuntimeCheck::kind] 707-728, [is_ignored] 730-745. *)
Definition check_kind (c : check) : option kind :=
  match c with
  | IsInt z => Some (KInt z)
  | IsFloat f => Some (KFloat f)
  | IsString s => Some (KString s)
  | IsStringPrefix p _ => Some (KStringPrefix p)
  | IsTuple n _ => Some (KTuple n)
  | IsVariant _ i _ _ => Some (KVariant i)
  | IsNonEmptyList _ _ => Some KNonEmptyList
  | IsEmptyList => Some KEmptyList
  | IsBitArray _ => None
  end.
Definition is_ignored (c : check) : bool :=
  match c with IsVariant (NeverExplicitlyMatchedOn _) _ _ _ => true | _ => false end.

(** [Pattern::to_runtime_check_kind] 550-583, [is_matching_on_unreachable_variant] 585-596,
    [is_matching_on_impossible_segment] 598-640 (whether there is one). *)
Definition to_runtime_check_kind {P} (p : pattern P) : option kind :=
  match p with
  | ADiscard | AVariable _ | AAssign _ _ | AStringPrefixSlice _ _ _ => None
  | AInt z => Some (KInt z)
  | AFloat f => Some (KFloat f)
  | AString s => Some (KString s)
  | AStringPrefix s _ _ => Some (KStringPrefix s)
  | ATuple ps => Some (KTuple (length ps))
  | AVariant i _ _ _ _ => Some (KVariant i)
  | ANonEmptyList _ _ => Some KNonEmptyList
  | AEmptyList => Some KEmptyList
  | ABitArray _ => None
  end.
Definition is_matching_on_unreachable_variant {P} (p : pattern P) (m : branch_mode) : bool :=
  match p, m with
  | AVariant i _ _ _ _, MNamed _ (Some variant) => negb (Nat.eqb i variant)
  | _, _ => false
  end.
Definition is_matching_on_impossible_segment {P} (p : pattern P) : bool :=
  match p with
  | ABitArray ts => existsb (fun t => match t with Match v _ => is_impossible_segment v | _ => false end) ts
  | _ => false
  end.

(** ** Decision trees *)

(** [Decision] 2049-2100 and [FallbackCheck] 2104-2155. *)
Inductive fallback_check :=
  | InfiniteCatchAll
  | FallbackRuntimeCheck (c : check)
  | CatchAll (ignored_checks : list check).
Inductive decision :=
  | Run (b : body)
  | Guard (guard : nat) (if_true : body) (if_false : decision)
  | Switch (var : cvar) (choices : list (check * decision)) (fallback : decision) (fcheck : fallback_check)
  | Fail.

(** ** The compiler's state *)

(** [Compiler] 2174-2181 and [Diagnostics] 2262-2296, but the arena. *)
Record context := Context {
  variable_id : nat;
  missing : bool;
  reachable : list (nat * nat);
  match_impossible_variants : list (nat * nat);
  match_impossible_segments : list (nat * nat) }.
Definition pair_eqb (a b : nat * nat) : bool := Nat.eqb (fst a) (fst b) && Nat.eqb (snd a) (snd b).
Definition remove_pair (a : nat * nat) (l : list (nat * nat)) : list (nat * nat) :=
  filter (fun b => negb (pair_eqb a b)) l.
Definition branch_id {P} (b : branch P) : nat * nat := (clause_index b, alternative_index b).

(** [fresh_variable] 2339-2343, [mark_as_reached] and its siblings 2345-2376, and setting
    [missing]. *)
Definition fresh_variable (t : ctype) (c : context) : cvar * context :=
  (Var (variable_id c) t,
   Context (S (variable_id c)) (missing c) (reachable c) (match_impossible_variants c)
           (match_impossible_segments c)).
Fixpoint fresh_variables (ts : list ctype) (c : context) : list cvar * context :=
  match ts with
  | [] => ([], c)
  | t :: ts =>
      let '(v, c) := fresh_variable t c in
      let '(vs, c) := fresh_variables ts c in (v :: vs, c)
  end.
Definition mark_as_reached (b : nat * nat) (c : context) : context :=
  Context (variable_id c) (missing c) (b :: reachable c) (match_impossible_variants c)
          (match_impossible_segments c).
Definition mark_as_matching_impossible_variant (b : nat * nat) (c : context) : context :=
  Context (variable_id c) (missing c) (remove_pair b (reachable c))
          (b :: match_impossible_variants c) (match_impossible_segments c).
Definition mark_as_matching_impossible_segment (b : nat * nat) (c : context) : context :=
  Context (variable_id c) (missing c) (remove_pair b (reachable c))
          (match_impossible_variants c) (b :: match_impossible_segments c).
Definition mark_missing (c : context) : context :=
  Context (variable_id c) true (reachable c) (match_impossible_variants c) (match_impossible_segments c).

(** [is_variant_check] 2821-2847, [is_list_check] 2849-2857, [is_tuple_check] 2859-2869. *)
Fixpoint labels_from (i : nat) (ps : list (option text * ctype)) : list (nat * text) :=
  match ps with
  | [] => []
  | (Some l, _) :: ps => (i, l) :: labels_from (S i) ps
  | (None, _) :: ps => labels_from (S i) ps
  end.
Definition is_variant_check (index : nat) (k : constructor) (c : context) : check * context :=
  let '(fields, c) := fresh_variables (map snd (c_parameters k)) c in
  (IsVariant (NeverExplicitlyMatchedOn (c_name k)) index (labels_from 0 (c_parameters k)) fields, c).
Definition is_list_check (inner : ctype) (c : context) : check * context :=
  let '(first, c) := fresh_variable inner c in
  let '(rest, c) := fresh_variable (CList inner) c in
  (IsNonEmptyList first rest, c).
Definition is_tuple_check (elements : list ctype) (c : context) : check * context :=
  let '(vs, c) := fresh_variables elements c in (IsTuple (length elements) vs, c).
Fixpoint is_variant_checks (index : nat) (ks : list constructor) (c : context) : list check * context :=
  match ks with
  | [] => ([], c)
  | k :: ks =>
      let '(x, c) := is_variant_check index k c in
      let '(xs, c) := is_variant_checks (S index) ks c in (x :: xs, c)
  end.

(** The known checks of [split_and_compile_with_pivot_var], 2436-2478. *)
Definition known_checks (m : branch_mode) (c : context) : out (list check * context) :=
  match m with
  | Infinite => Done ([], c)
  | MTuple ts => let '(x, c) := is_tuple_check ts c in Done ([x], c)
  | MList t => let '(x, c) := is_list_check t c in Done ([IsEmptyList; x], c)
  | MNamed ks (Some index) =>
      match nth_error ks index with
      | Some k => let '(x, c) := is_variant_check index k c in Done ([x], c)
      | None => Panic
      end
  | MNamed ks None => Done (is_variant_checks 0 ks c)
  end.

(** [fresh_runtime_check], 2609-2649. *)
Definition fresh_runtime_check (k : kind) (m : branch_mode) (c : context) : out (check * context) :=
  match k, m with
  | KInt z, _ => Done (IsInt z, c)
  | KFloat f, _ => Done (IsFloat f, c)
  | KString s, _ => Done (IsString s, c)
  | KStringPrefix p, _ => let '(rest, c) := fresh_variable CString c in Done (IsStringPrefix p rest, c)
  | KTuple _, MTuple ts => Done (is_tuple_check ts c)
  | KVariant i, MNamed ks _ =>
      match nth_error ks i with Some k => Done (is_variant_check i k c) | None => Panic end
  | KEmptyList, _ => Done (IsEmptyList, c)
  | KNonEmptyList, MList t => Done (is_list_check t c)
  | _, _ => Panic
  end.

(** ** Choosing the pivot *)

(** [find_pivot_check], 2896-2940.  The count of references is one less than the number of
    checks on the variable; it does not change the comparison. *)
Definition references {P} (v : cvar) (bs : list (branch P)) : nat :=
  length (filter (fun c => same_variable (fst c) v) (flat_map checks bs)).
Definition key {P} (env : environment) (bs : list (branch P)) (v : cvar) : out (N * nat) :=
  let* m := mode_of env (var_type v) in Done (branching_factor m, references v bs).
Definition key_lt (a b : N * nat) : bool :=
  (fst a <? fst b)%N || ((fst a =? fst b)%N && Nat.ltb (snd b) (snd a)).
Fixpoint min_by_key {P} (env : environment) (bs : list (branch P)) (best : cvar) (best_key : N * nat)
    (cs : list (cvar * P)) : out cvar :=
  match cs with
  | [] => Done best
  | c :: cs =>
      let* k := key env bs (fst c) in
      if key_lt k best_key then min_by_key env bs (fst c) k cs else min_by_key env bs best best_key cs
  end.
Definition find_pivot {P} (env : environment) (first : branch P) (bs : list (branch P)) : out (option cvar) :=
  match checks first with
  | [] => Done None
  | c :: cs =>
      let* k := key env bs (fst c) in
      let* v := min_by_key env bs (fst c) k cs in Done (Some v)
  end.

(** ** Splitting branches *)

(** [BranchSplitter], 2944-2959. *)
Record splitter (P : Type) := Splitter {
  choices : list (check * list (branch P));
  fallback : list (branch P);
  indices : list (kind * nat);
  prefix_indices : list (text * nat) }.
Arguments Splitter {P}. Arguments choices {P}. Arguments fallback {P}.
Arguments indices {P}. Arguments prefix_indices {P}.

(** [from_checks], 2964-2984. *)
Fixpoint index_kinds (i : nat) (cs : list check) : list (kind * nat) :=
  match cs with
  | [] => []
  | c :: cs =>
      match check_kind c with
      | Some k => (k, i) :: index_kinds (S i) cs
      | None => index_kinds (S i) cs
      end
  end.
Definition from_checks {P} (cs : list check) : splitter P :=
  Splitter (map (fun c => (c, []))
                (filter (fun c => match check_kind c with Some _ => true | None => false end) cs))
           [] (index_kinds 0 cs) [].

(** [add_fallback_branch], 2988-2993. *)
Definition add_fallback_branch {P} (b : branch P) (s : splitter P) : splitter P :=
  Splitter (map (fun c => (fst c, snd c ++ [b])) (choices s)) (fallback s ++ [b])
           (indices s) (prefix_indices s).

(** [save_index_of_new_choice], 3168-3182. *)
Definition save_index_of_new_choice {P} (k : kind) (s : splitter P) : splitter P :=
  match k with
  | KStringPrefix p =>
      Splitter (choices s) (fallback s) (indices s) (prefix_indices s ++ [(p, length (choices s))])
  | _ => Splitter (choices s) (fallback s) ((k, length (choices s)) :: indices s) (prefix_indices s)
  end.

(** [HashMap::get]. *)
Fixpoint get_index (k : kind) (is : list (kind * nat)) : option nat :=
  match is with
  | [] => None
  | (k', i) :: is => if kind_eqb k k' then Some i else get_index k is
  end.

(** [Trie::get_ancestor]: the longest key that starts the given one; [overlap_candidates]
    and [descendant_candidates], 3333-3351. *)
Fixpoint longest (best : option text) (key : text) (trie : list (text * nat)) : option text :=
  match trie with
  | [] => best
  | (k, _) :: trie =>
      if starts_with k key
         && match best with Some b => Nat.ltb (length b) (length k) | None => true end
      then longest (Some k) key trie else longest best key trie
  end.
Definition get_ancestor (key : text) (trie : list (text * nat)) : option text := longest None key trie.
Definition overlap_candidates (trie : list (text * nat)) (key : text) : list (text * nat) :=
  match get_ancestor key trie with
  | Some a => filter (fun e => starts_with a (fst e)) trie
  | None => []
  end.
Definition descendant_candidates (trie : list (text * nat)) (key : text) : list (text * nat) :=
  filter (fun e => starts_with key (fst e)) trie.

(** [choice_has_guard_using_pattern_bindings], 3184-3192. *)
Definition has_binding_guard {P} (b : branch P) : bool :=
  match guard b with Some g => uses_pattern_bindings g | None => false end.
Definition choice_has_guard_using_pattern_bindings {P} (s : splitter P) (i : nat) : bool :=
  match nth_error (choices s) i with
  | Some (_, bs) => existsb has_binding_guard bs
  | None => false
  end.

(** [check_overlaps], 3194-3315: the overlapping choices, and whether a new one is needed. *)
Definition is_empty {A} (l : list A) : bool := match l with [] => true | _ => false end.
Definition option_list {A} (o : option A) : list A := match o with Some a => [a] | None => [] end.
Definition check_overlaps {P} (s : splitter P) (k : kind) : list nat * bool :=
  match k with
  | KInt _ | KFloat _ | KTuple _ | KVariant _ | KEmptyList | KNonEmptyList =>
      let overlapping := option_list (get_index k (indices s)) in (overlapping, is_empty overlapping)
  | KStringPrefix value =>
      match get_ancestor value (prefix_indices s) with
      | Some _ =>
          (map snd
             (filter
                (fun e =>
                   if starts_with (fst e) value then true
                   else starts_with value (fst e) && choice_has_guard_using_pattern_bindings s (snd e))
                (overlap_candidates (prefix_indices s) value)),
           false)
      | None =>
          (map snd
             (filter
                (fun e => starts_with value (fst e) && choice_has_guard_using_pattern_bindings s (snd e))
                (descendant_candidates (prefix_indices s) value)),
           true)
      end
  | KString value =>
      let overlapping :=
        option_list (get_index k (indices s))
        ++ map snd (filter (fun e => starts_with (fst e) value) (overlap_candidates (prefix_indices s) value)) in
      (overlapping, is_empty overlapping)
  end.

(** Adding a branch to one of the choices. *)
Fixpoint push_choice {P} (i : nat) (b : branch P) (cs : list (check * list (branch P))) :
    list (check * list (branch P)) :=
  match cs, i with
  | [], _ => []
  | (c, bs) :: cs, O => (c, bs ++ [b]) :: cs
  | x :: cs, S i => x :: push_choice i b cs
  end.
Definition with_choices {P} (s : splitter P) (cs : list (check * list (branch P))) : splitter P :=
  Splitter cs (fallback s) (indices s) (prefix_indices s).

(** The end of [add_checked_branch], 3043-3068: the names a variant was matched with. *)
Definition name_variant (used_name name : text) (module : option text) (c : check) : check :=
  match c with
  | IsVariant _ i ls fs => IsVariant (ExplicitlyMatchedOn used_name name module) i ls fs
  | _ => c
  end.
Fixpoint update_choice {P} (f : check -> check) (i : nat) (cs : list (check * list (branch P))) :
    list (check * list (branch P)) :=
  match cs, i with
  | [], _ => []
  | (c, bs) :: cs, O => (f c, bs) :: cs
  | x :: cs, S i => x :: update_choice f i cs
  end.
Definition name_variants {P Q} (p : pattern Q) (overlapping : list nat) (s : splitter P) : splitter P :=
  match p with
  | AVariant _ used_name name module _ =>
      with_choices s (fold_left (fun cs i => update_choice (name_variant used_name name module) i cs)
                                overlapping (choices s))
  | _ => s
  end.

(** [str::strip_prefix]. *)
Fixpoint strip_prefix (p s : text) : option text :=
  match p, s with
  | [], s => Some s
  | x :: p, y :: s => if (x =? y)%N then strip_prefix p s else None
  | _ :: _, [] => None
  end.

(** [splitter_to_exhaustive_switch], 2552-2591: what is left to choose from, and the
    fallback.  The last choice is taken away by [Vec::pop]. *)
Definition exhaustive_parts {P} (s : splitter P) :
    out (list (check * list (branch P)) * list (branch P) * fallback_check) :=
  if existsb (fun c => is_ignored (fst c)) (choices s) then
    Done (filter (fun c => negb (is_ignored (fst c))) (choices s), fallback s,
          CatchAll (map fst (filter (fun c => is_ignored (fst c)) (choices s))))
  else
    match rev (choices s) with
    | [] => Panic
    | (last_check, last_choice) :: others => Done (rev others, last_choice, FallbackRuntimeCheck last_check)
    end.

(** ** Unconditional patterns *)

(** [BitArrayMatchedValue::is_discard], 1474-1484; [BitArrayTest::is_discard] holds of a
    match on such a value. *)
Definition is_discard (v : matched_value) : bool := match v with MDiscard _ => true | _ => false end.

(** [assign_segment_constant_value], 468-483. *)
Definition segment_constant_value (v : matched_value) : out bound_value :=
  match v with
  | LiteralFloat f => Done (BLiteralFloat f)
  | LiteralInt z _ => Done (BLiteralInt z)
  | LiteralString s _ => Done (BLiteralString s)
  | MVariable _ | MDiscard _ | MAssign _ _ => Panic
  end.

(** The loop of [move_unconditional_patterns] on a bit array pattern, 283-337: the tests
    left and the body. *)
Fixpoint move_tests (v : cvar) (ts : list test) (b : body) : out (list test * body) :=
  match ts with
  | [] => Done ([], b)
  | Match (MVariable n) r :: ts => move_tests v ts (assign n (BBitArraySlice v r) b)
  | Match (MAssign n value) r :: ts' =>
      if is_discard value then move_tests v ts' (assign n (BBitArraySlice v r) b)
      else
        let* c := segment_constant_value value in Done (Match value r :: ts', assign n c b)
  | Match (MDiscard _) _ :: ts => move_tests v ts b
  | _ => Done (ts, b)
  end.

(** ** The compiler *)
Definition pid := nat.
Definition arena := list (pattern pid).
Record state := State { patterns : arena; ctx : context }.
Definition alloc (p : pattern pid) (a : arena) : pid * arena := (length a, a ++ [p]).
Fixpoint set_pattern (i : pid) (p : pattern pid) (a : arena) : arena :=
  match a, i with
  | [], _ => []
  | _ :: a, O => p :: a
  | q :: a, S i => q :: set_pattern i p a
  end.

(** [move_unconditional_patterns], 230-365, on one check: the check to keep if any, the
    body, the arena.  Each turn of the loop follows an [Assign] to a pattern registered
    before it, so there are at most as many as patterns. *)
Fixpoint move_check (fuel : nat) (v : cvar) (p : pid) (b : body) (a : arena) :
    out (option (cvar * pid) * body * arena) :=
  match fuel with
  | O => OutOfFuel
  | S fuel =>
      match nth_error a p with
      | None => Panic
      | Some (AVariable n) => Done (None, assign n (BVariable v) b, a)
      | Some ADiscard => Done (None, b, a)
      | Some (AAssign n q) => move_check fuel v q (assign n (BVariable v) b) a
      | Some (AStringPrefix prefix prefix_name rest) =>
          match prefix_name with
          | Some n =>
              Done (Some (v, p), assign n (BLiteralString prefix) b,
                    set_pattern p (AStringPrefix prefix None rest) a)
          | None => Done (Some (v, p), b, a)
          end
      | Some (ABitArray ts) =>
          let* '(ts, b) := move_tests v ts b in
          let a := set_pattern p (ABitArray ts) a in
          match ts with
          | [] => Done (None, b, a)
          | _ => Done (Some (v, p), b, a)
          end
      | Some (AStringPrefixSlice prefix prefix_name rest_name) =>
          let b := match prefix_name with Some n => assign n (BLiteralString prefix) b | None => b end in
          let b := match rest_name with Some n => assign n (BStringSlice v prefix) b | None => b end in
          Done (None, b, set_pattern p (AStringPrefixSlice prefix None None) a)
      | Some (AInt _ | AFloat _ | AString _ | ATuple _ | AVariant _ _ _ _ _ | ANonEmptyList _ _ | AEmptyList) =>
          Done (Some (v, p), b, a)
      end
  end.
Fixpoint move_checks (cs : list (cvar * pid)) (b : body) (a : arena) :
    out (list (cvar * pid) * body * arena) :=
  match cs with
  | [] => Done ([], b, a)
  | (v, p) :: cs =>
      let* '(c, b, a) := move_check (S (length a)) v p b a in
      let* '(cs, b, a) := move_checks cs b a in
      Done (option_list c ++ cs, b, a)
  end.
Definition move_unconditional_patterns (br : branch pid) (a : arena) : out (branch pid * arena) :=
  let* '(cs, b, a) := move_checks (checks br) (branch_body br) a in
  Done (Branch (clause_index br) (alternative_index br) cs (guard br) b, a).
Fixpoint move_all (bs : list (branch pid)) (a : arena) : out (list (branch pid) * arena) :=
  match bs with
  | [] => Done ([], a)
  | b :: bs =>
      let* '(b, a) := move_unconditional_patterns b a in
      let* '(bs, a) := move_all bs a in Done (b :: bs, a)
  end.

(** [new_checks], 2651-2816. *)
Definition new_checks (subject : cvar) (p : pattern pid) (c : check) (a : arena) :
    out (list (cvar * pid) * arena) :=
  match p, c with
  | (ADiscard | AAssign _ _ | AVariable _ | AInt _ | AFloat _ | ABitArray _ | AEmptyList), _ => Done ([], a)
  | AString _, IsString _ => Done ([], a)
  | ANonEmptyList p q, IsNonEmptyList first rest => Done ([(first, p); (rest, q)], a)
  | AVariant _ _ _ _ ps, IsVariant _ _ _ vs => Done (combine vs ps, a)
  | ATuple ps, IsTuple _ vs => Done (combine vs ps, a)
  | AString value, IsStringPrefix prefix rest =>
      let remaining := match strip_prefix prefix value with Some r => r | None => value end in
      let '(q, a) := alloc (AString remaining) a in Done ([(rest, q)], a)
  | AStringPrefix prefix1 prefix_name rest1, IsStringPrefix prefix0 rest0 =>
      match strip_prefix prefix0 prefix1 with
      | Some [] => Done ([(rest0, rest1)], a)
      | Some remaining =>
          let '(q, a) := alloc (AStringPrefix remaining None rest1) a in Done ([(rest0, q)], a)
      | None =>
          match prefix_name, nth_error a rest1 with
          | _, None => Panic
          | None, Some ADiscard => Done ([], a)
          | _, Some ADiscard =>
              let '(q, a) := alloc (AStringPrefixSlice prefix1 prefix_name None) a in Done ([(subject, q)], a)
          | _, Some (AVariable n) =>
              let '(q, a) := alloc (AStringPrefixSlice prefix1 prefix_name (Some n)) a in Done ([(subject, q)], a)
          | _, Some _ => Panic
          end
      end
  | _, _ => Panic
  end.

(** The loop over the overlapping choices, 3020-3032. *)
Fixpoint add_to_choices (pc : cvar * pid) (p : pattern pid) (br : branch pid) (overlapping : list nat)
    (cs : list (check * list (branch pid))) (a : arena) : out (list (check * list (branch pid)) * arena) :=
  match overlapping with
  | [] => Done (cs, a)
  | i :: overlapping =>
      match nth_error cs i with
      | None => Panic
      | Some (c, _) =>
          let* '(new, a) := new_checks (fst pc) p c a in
          add_to_choices pc p br overlapping (push_choice i (add_checks br new) cs) a
      end
  end.

(** [add_checked_bit_array_branch], 3098-3166. *)
Definition add_checked_bit_array_branch (pc : cvar * pid) (ts : list test) (br : branch pid)
    (s : splitter pid) (a : arena) : out (splitter pid * arena) :=
  let* '(pivot, s) :=
    match choices s with
    | [] =>
        match ts with
        | [] => Panic
        | t :: _ => Done (t, with_choices s [(IsBitArray t, [])])
        end
    | [(IsBitArray t, _)] => Done (t, s)
    | _ => Panic
    end in
  let '(s, a) :=
    if existsb (fun t => fails_if_succeeding t pivot) ts then (s, a)
    else
      let '(q, a) := alloc (ABitArray (filter (fun t => negb (succeeds_if_succeeding t pivot)) ts)) a in
      (with_choices s (push_choice 0 (add_checks br [(fst pc, q)]) (choices s)), a) in
  let s :=
    if existsb (fun t => fails_if_failing t pivot) ts then s
    else Splitter (choices s) (fallback s ++ [add_checks br [pc]]) (indices s) (prefix_indices s) in
  Done (s, a).

(** [add_checked_branch], 2999-3070. *)
Definition add_checked_branch (pc : cvar * pid) (br : branch pid) (m : branch_mode)
    (s : splitter pid) (st : state) : out (splitter pid * state) :=
  match nth_error (patterns st) (snd pc) with
  | None => Panic
  | Some (ABitArray ts) =>
      let* '(s, a) := add_checked_bit_array_branch pc ts br s (patterns st) in
      Done (s, State a (ctx st))
  | Some p =>
      match to_runtime_check_kind p with
      | None => Panic
      | Some k =>
          let '(overlapping, needs_new_choice) := check_overlaps s k in
          let* '(cs, a) := add_to_choices pc p br overlapping (choices s) (patterns st) in
          let s := with_choices s cs in
          let* '(s, st) :=
            if needs_new_choice then
              let s := save_index_of_new_choice k s in
              let* '(c, x) := fresh_runtime_check k m (ctx st) in
              let* '(new, a) := new_checks (fst pc) p c a in
              Done (with_choices s (choices s ++ [(c, fallback s ++ [add_checks br new])]), State a x)
            else Done (s, State a (ctx st)) in
          Done (name_variants p overlapping s, st)
      end
  end.

(** [split_branches], 2501-2536. *)
Fixpoint split_branches (pivot : cvar) (m : branch_mode) (bs : list (branch pid))
    (s : splitter pid) (st : state) : out (splitter pid * state) :=
  match bs with
  | [] => Done (s, st)
  | br :: bs =>
      match pop_check pivot (checks br) with
      | None => split_branches pivot m bs (add_fallback_branch br s) st
      | Some (pc, cs) =>
          let br := with_checks br cs in
          match nth_error (patterns st) (snd pc) with
          | None => Panic
          | Some p =>
              if is_matching_on_unreachable_variant p m then
                split_branches pivot m bs s
                  (State (patterns st) (mark_as_matching_impossible_variant (branch_id br) (ctx st)))
              else if is_matching_on_impossible_segment p then
                split_branches pivot m bs s
                  (State (patterns st) (mark_as_matching_impossible_segment (branch_id br) (ctx st)))
              else
                let* '(s, st) := add_checked_branch pc br m s st in
                split_branches pivot m bs s st
          end
      end
  end.

Section Compile.
  Context (env : environment).

  (** [compile_all_choices], 2594-2606. *)
  Fixpoint compile_all_choices {P S} (compile : list (branch P) -> S -> out (decision * S))
      (cs : list (check * list (branch P))) (st : S) : out (list (check * decision) * S) :=
    match cs with
    | [] => Done ([], st)
    | (c, bs) :: cs =>
        let* '(d, st) := compile bs st in
        let* '(ds, st) := compile_all_choices compile cs st in
        Done ((c, d) :: ds, st)
    end.

  (** The switch made from a splitter, 2538-2591. *)
  Definition compile_switch {P S} (compile : list (branch P) -> S -> out (decision * S)) (pivot : cvar)
      (cs : list (check * list (branch P))) (fb : list (branch P)) (fc : fallback_check) (st : S) :
      out (decision * S) :=
    let* '(ds, st) := compile_all_choices compile cs st in
    let* '(d, st) := compile fb st in
    Done (Switch pivot ds d fc, st).

  (** [split_and_compile_with_pivot_var], 2427-2498. *)
  Definition split_and_compile (compile : list (branch pid) -> state -> out (decision * state))
      (pivot : cvar) (bs : list (branch pid)) (st : state) : out (decision * state) :=
    let* m := mode_of env (var_type pivot) in
    let* '(known, x) := known_checks m (ctx st) in
    let* '(s, st) := split_branches pivot m bs (from_checks known) (State (patterns st) x) in
    if is_infinite m then compile_switch compile pivot (choices s) (fallback s) InfiniteCatchAll st
    else if is_empty (choices s) then Done (Fail, State (patterns st) (mark_missing (ctx st)))
    else
      let* '(cs, fb, fc) := exhaustive_parts s in
      compile_switch compile pivot cs fb fc st.

  (** [compile], 2378-2425. *)
  Fixpoint compile (fuel : nat) (bs : list (branch pid)) (st : state) : out (decision * state) :=
    match fuel with
    | O => OutOfFuel
    | S fuel =>
        let* '(bs, a) := move_all bs (patterns st) in
        match bs with
        | [] => Done (Fail, State a (mark_missing (ctx st)))
        | first :: others =>
            let st := State a (mark_as_reached (branch_id first) (ctx st)) in
            let* pivot := find_pivot env first bs in
            match pivot with
            | Some v => split_and_compile (compile fuel) v bs st
            | None =>
                match guard first with
                | None => Done (Run (branch_body first), st)
                | Some g =>
                    let* '(d, st) := compile fuel others st in
                    Done (Guard (guard_clause g) (branch_body first) d, st)
                end
            end
        end
    end.
End Compile.

(** ** Setting up a [case] *)

(** [TypedPattern], compiler-core/src/ast.rs. *)
Inductive source :=
  | TPInvalid
  | TPDiscard
  | TPInt (z : Z)
  | TPFloat (f : N)
  | TPString (s : text)
  | TPVariable (name : text)
  | TPAssign (name : text) (p : source)
  | TPTuple (elements : list source)
  | TPList (elements : list source) (tail : option source)
  | TPConstructor (index : nat) (used_name name : text) (module : option text) (arguments : list source)
  | TPBitArray (segments : list segment)
  | TPStringPrefix (prefix : text) (prefix_name : option text) (rest_name : option text).

(** [bound_variables], compiler-core/src/ast.rs 3533-3640: the names. *)
Fixpoint segment_names (p : seg_pattern) : list text :=
  match p with
  | PVariable n => [n]
  | PAssign n p => n :: segment_names p
  | PInt _ | PFloat _ | PString _ | PDiscard _ => []
  end.
Fixpoint bound_variables (p : source) : list text :=
  match p with
  | TPInvalid | TPDiscard | TPInt _ | TPFloat _ | TPString _ => []
  | TPVariable n => [n]
  | TPAssign n p => n :: bound_variables p
  | TPTuple ps => flat_map bound_variables ps
  | TPList ps tail =>
      flat_map bound_variables ps ++ match tail with Some (TPVariable n) => [n] | _ => [] end
  | TPConstructor _ _ _ _ ps => flat_map bound_variables ps
  | TPBitArray ss => flat_map (fun s => segment_names (value s)) ss
  | TPStringPrefix _ a b => option_list a ++ option_list b
  end.

(** [CaseToCompile::register], 3596-3705. *)
Fixpoint register (p : source) (a : arena) : pid * arena :=
  match p with
  | TPInvalid | TPDiscard => alloc ADiscard a
  | TPInt z => alloc (AInt z) a
  | TPFloat f => alloc (AFloat f) a
  | TPString s => alloc (AString s) a
  | TPVariable n => alloc (AVariable n) a
  | TPAssign n p => let '(i, a) := register p a in alloc (AAssign n i) a
  | TPTuple ps =>
      let '(is, a) :=
        (fix go ps a :=
           match ps with
           | [] => ([], a)
           | p :: ps => let '(i, a) := register p a in let '(is, a) := go ps a in (i :: is, a)
           end) ps a in
      alloc (ATuple is) a
  | TPList ps tail =>
      let '(t, a) := match tail with Some p => register p a | None => alloc AEmptyList a end in
      (fix go ps a :=
         match ps with
         | [] => (t, a)
         | p :: ps =>
             let '(l, a) := go ps a in
             let '(i, a) := register p a in alloc (ANonEmptyList i l) a
         end) ps a
  | TPConstructor index used_name name module ps =>
      let '(is, a) :=
        (fix go ps a :=
           match ps with
           | [] => ([], a)
           | p :: ps => let '(i, a) := register p a in let '(is, a) := go ps a in (i :: is, a)
           end) ps a in
      alloc (AVariant index used_name name module is) a
  | TPBitArray ss => alloc (ABitArray (bit_array_to_tests ss)) a
  | TPStringPrefix prefix prefix_name rest_name =>
      let '(r, a) := alloc (match rest_name with Some n => AVariable n | None => ADiscard end) a in
      alloc (AStringPrefix prefix prefix_name r) a
  end.

(** [TypedClause]: its alternatives, the first being [pattern], and the variables its guard
    refers to. *)
Record clause := Clause { alternatives : list (list source); guard_variables : option (list text) }.

(** [CaseToCompile::new] 3486-3509 and [add_clause] 3511-3556. *)
Fixpoint subject_variables_from (i : nat) (ts : list ctype) : list cvar :=
  match ts with [] => [] | t :: ts => Var i t :: subject_variables_from (S i) ts end.
Fixpoint register_row (vs : list cvar) (ps : list source) (a : arena) : out (list (cvar * pid) * arena) :=
  match ps, vs with
  | [], _ => Done ([], a)
  | _ :: _, [] => Panic
  | p :: ps, v :: vs =>
      let '(i, a) := register p a in
      let* '(cs, a) := register_row vs ps a in Done ((v, i) :: cs, a)
  end.
Definition clause_guard (clause_index : nat) (ps : list source) (g : option (list text)) : option branch_guard :=
  match g with
  | None => None
  | Some referenced =>
      Some (BranchGuard clause_index
              (existsb (fun p => existsb (fun n => existsb (text_eqb n) referenced) (bound_variables p)) ps))
  end.
Fixpoint add_alternatives (vs : list cvar) (clause_index alternative_index : nat) (g : option (list text))
    (alts : list (list source)) (a : arena) : out (list (branch pid) * arena) :=
  match alts with
  | [] => Done ([], a)
  | ps :: alts =>
      let* '(cs, a) := register_row vs ps a in
      let* '(bs, a) := add_alternatives vs clause_index (S alternative_index) g alts a in
      Done (Branch clause_index alternative_index cs (clause_guard clause_index ps g)
                   (Body [] clause_index) :: bs, a)
  end.
Fixpoint add_clauses (vs : list cvar) (clause_index : nat) (cls : list clause) (a : arena) :
    out (list (branch pid) * arena) :=
  match cls with
  | [] => Done ([], a)
  | cl :: cls =>
      let* '(bs, a) := add_alternatives vs clause_index 0 (guard_variables cl) (alternatives cl) a in
      let* '(bs', a) := add_clauses vs (S clause_index) cls a in
      Done (bs ++ bs', a)
  end.

(** Enough fuel for [compile]: more than the nodes of all the patterns. *)
Fixpoint source_size (p : source) : nat :=
  match p with
  | TPTuple ps | TPConstructor _ _ _ _ ps => S (list_sum (map source_size ps))
  | TPAssign _ p => S (source_size p)
  | TPList ps tail =>
      S (list_sum (map (fun p => S (source_size p)) ps) + match tail with Some p => source_size p | None => 0 end)
  | TPBitArray ss => S (length (bit_array_to_tests ss))
  | TPStringPrefix s _ _ => 3 + length s
  | _ => 1
  end.
Definition clause_size (cl : clause) : nat :=
  list_sum (map (fun ps => S (list_sum (map source_size ps))) (alternatives cl)).
Definition case_fuel (cls : list clause) : nat := S (list_sum (map clause_size cls)).

(** [CaseToCompile::compile], 3569-3594: the tree and the diagnostics. *)
Definition compile_case (env : environment) (subjects : list ctype) (cls : list clause) :
    out (decision * context) :=
  let vs := subject_variables_from 0 subjects in
  let* '(bs, a) := add_clauses vs 0 cls [] in
  let st := State a (Context (length subjects) false [] [] []) in
  let* '(d, st) :=
    match bs with
    | [] =>
        match vs with
        | [] => Panic
        | v :: _ => split_and_compile env (compile env (case_fuel cls)) v [] st
        end
    | _ => compile env (case_fuel cls) bs st
    end in
  Done (d, ctx st).

(** [CompileCaseResult::is_reachable], 2190-2214. *)
Inductive reachability := Reachable | ImpossibleVariant | ImpossibleSegments | DuplicatePattern.
Definition is_reachable (c : context) (clause_index alternative_index : nat) : reachability :=
  let b := (clause_index, alternative_index) in
  if existsb (pair_eqb b) (reachable c) then Reachable
  else if existsb (pair_eqb b) (match_impossible_variants c) then ImpossibleVariant
  else if existsb (pair_eqb b) (match_impossible_segments c) then ImpossibleSegments
  else DuplicatePattern.
