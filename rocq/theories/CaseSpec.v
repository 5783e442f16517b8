(** What a [case] expression and a decision tree mean.  Only data types come from the model:
    types, source patterns, clauses, decision trees. *)
From Coq Require Import ZArith NArith Bool List Permutation.
From Verif Require Import Text Strings StringsSpec Bits BitsSpec Case.
Import ListNotations.
Local Open Scope nat_scope.

(** ** Values *)

(** [VOther] are the values without patterns of their own; [VRead] is the float, the string
    or the code point that some bits of a bit array spell. *)
Inductive val :=
  | VInt (z : Z)
  | VFloat (bits : N)
  | VString (s : text)
  | VBits (b : list bool)
  | VList (elements : list val)
  | VTuple (elements : list val)
  | VVariant (index : nat) (fields : list val)
  | VRead (t : read_type) (e : endianness) (b : list bool)
  | VOther (n : nat).

(** The type of a constructor's field, given the arguments of its type. *)
Fixpoint argument (params : list N) (args : list ctype) (i : N) : option ctype :=
  match params, args with
  | p :: params, a :: args => if (i =? p)%N then Some a else argument params args i
  | _, _ => None
  end.
Fixpoint instantiate (params : list N) (args : list ctype) (t : ctype) : ctype :=
  match t with
  | CGeneric i => match argument params args i with Some a => a | None => CGeneric i end
  | CList t => CList (instantiate params args t)
  | CTuple ts => CTuple (map (instantiate params args) ts)
  | CNamed m n ts i => CNamed m n (map (instantiate params args) ts) i
  | t => t
  end.
Definition field_types (params : list N) (args : list ctype) (k : constructor) : list ctype :=
  map (fun f => instantiate params args (snd f)) (c_parameters k).

Inductive has_type (env : environment) : val -> ctype -> Prop :=
  | has_int z : has_type env (VInt z) CInt
  | has_float f : has_type env (VFloat f) CFloat
  | has_string s : has_type env (VString s) CString
  | has_bits b : has_type env (VBits b) CBitArray
  | has_list vs t : Forall (fun v => has_type env v t) vs -> has_type env (VList vs) (CList t)
  | has_tuple vs ts : Forall2 (has_type env) vs ts -> has_type env (VTuple vs) (CTuple ts)
  | has_variant m n args inferred tv i k vs :
      get_constructors_for_type env m n = Some tv ->
      nth_error (tv_variants tv) i = Some k ->
      (forall j, inferred = Some j -> i = j) ->
      Forall2 (has_type env) vs (field_types (tv_parameters tv) args k) ->
      has_type env (VVariant i vs) (CNamed m n args inferred)
  | has_external m n args inferred tv x :
      get_constructors_for_type env m n = Some tv -> tv_variants tv = [] ->
      has_type env (VOther x) (CNamed m n args inferred)
  | has_fn x : has_type env (VOther x) CFn
  | has_type_variable v : has_type env v CTypeVar
  | has_generic v i : has_type env v (CGeneric i).

(** ** Well typed patterns *)
Inductive pattern_type (env : environment) : ctype -> source -> Prop :=
  | type_discard t : pattern_type env t TPDiscard
  | type_variable t n : pattern_type env t (TPVariable n)
  | type_assign t n p : pattern_type env t p -> pattern_type env t (TPAssign n p)
  | type_int z : pattern_type env CInt (TPInt z)
  | type_float f : pattern_type env CFloat (TPFloat f)
  | type_string s m : literal s m -> pattern_type env CString (TPString s)
  | type_prefix s m l r : literal s m -> pattern_type env CString (TPStringPrefix s l r)
  | type_bit_array segs : valid_segments segs -> pattern_type env CBitArray (TPBitArray segs)
  | type_tuple ts ps : Forall2 (pattern_type env) ts ps -> pattern_type env (CTuple ts) (TPTuple ps)
  | type_list t ps : Forall (pattern_type env t) ps -> pattern_type env (CList t) (TPList ps None)
  | type_list_discard t ps : Forall (pattern_type env t) ps ->
      pattern_type env (CList t) (TPList ps (Some TPDiscard))
  | type_list_variable t ps n : Forall (pattern_type env t) ps ->
      pattern_type env (CList t) (TPList ps (Some (TPVariable n)))
  | type_constructor m n args inferred tv i k used name module ps :
      get_constructors_for_type env m n = Some tv ->
      tv_opaque tv = false \/ m = current_module env ->
      nth_error (tv_variants tv) i = Some k ->
      (forall j, inferred = Some j -> j < length (tv_variants tv)) ->
      Forall2 (pattern_type env) (field_types (tv_parameters tv) args k) ps ->
      pattern_type env (CNamed m n args inferred) (TPConstructor i used name module ps).

Section Semantics.
  (** As in BitsSpec.v; [float_value] is the value of a float literal; [guards] tells whether
      the guard of a clause holds given the variables of its pattern. *)
  Context (outside : text -> Z)
          (float_is : text -> endianness -> list bool -> bool)
          (finite : endianness -> list bool -> bool)
          (float_value : text -> val)
          (guards : nat -> list (text * val) -> bool).

  (** The value a segment's variable has. *)
  Definition segment_value (t : read_type) (e : endianness) (signed : bool) (c : list bool) : val :=
    match t with
    | TInt => VInt (int_of e signed c)
    | TBitArray => VBits c
    | t => VRead t e c
    end.
  (** The segment of each of the names a bit array pattern binds. *)
  Definition named_segments (segs : list segment) : list segment :=
    flat_map (fun s => map (fun _ => s) (names (value s))) segs.
  Definition segment_bindings (segs : list segment) (bound : list (text * list bool)) : list (text * val) :=
    map (fun '(s, (n, c)) => (n, segment_value (type_ s) (endian s) (is_signed s) c))
        (combine (named_segments segs) bound).

  Definition named (n : option text) (v : val) : list (text * val) :=
    match n with Some n => [(n, v)] | None => [] end.

  (** ** Matching *)
  Inductive pattern_matches : source -> val -> list (text * val) -> Prop :=
    | match_discard v : pattern_matches TPDiscard v []
    | match_variable n v : pattern_matches (TPVariable n) v [(n, v)]
    | match_assign n p v bs : pattern_matches p v bs -> pattern_matches (TPAssign n p) v ((n, v) :: bs)
    | match_int z : pattern_matches (TPInt z) (VInt z) []
    | match_float f : pattern_matches (TPFloat f) (VFloat f) []
    | match_string s m : literal s m -> pattern_matches (TPString s) (VString m) []
    | match_prefix s m l r rest : literal s m ->
        pattern_matches (TPStringPrefix s l r) (VString (m ++ rest))
                        (named l (VString m) ++ named r (VString rest))
    | match_bit_array segs b bound : matches float_is finite outside segs b bound ->
        pattern_matches (TPBitArray segs) (VBits b) (segment_bindings segs bound)
    | match_tuple ps vs bs : patterns_match ps vs bs -> pattern_matches (TPTuple ps) (VTuple vs) bs
    | match_list ps vs bs : patterns_match ps vs bs -> pattern_matches (TPList ps None) (VList vs) bs
    | match_list_tail ps p vs rest bs bs' : patterns_match ps vs bs -> pattern_matches p (VList rest) bs' ->
        pattern_matches (TPList ps (Some p)) (VList (vs ++ rest)) (bs ++ bs')
    | match_constructor i used name module ps vs bs : patterns_match ps vs bs ->
        pattern_matches (TPConstructor i used name module ps) (VVariant i vs) bs
  with patterns_match : list source -> list val -> list (text * val) -> Prop :=
    | match_none : patterns_match [] [] []
    | match_more p ps v vs bs bs' : pattern_matches p v bs -> patterns_match ps vs bs' ->
        patterns_match (p :: ps) (v :: vs) (bs ++ bs').

  (** The alternatives of all the clauses, in the order they are tried. *)
  Record row := Row { row_clause : nat; row_alternative : nat; row_patterns : list source; row_guard : option (list text) }.
  Fixpoint alternative_rows (c a : nat) (g : option (list text)) (alts : list (list source)) : list row :=
    match alts with
    | [] => []
    | ps :: alts => Row c a ps g :: alternative_rows c (S a) g alts
    end.
  Fixpoint clause_rows (c : nat) (cls : list clause) : list row :=
    match cls with
    | [] => []
    | cl :: cls => alternative_rows c 0 (guard_variables cl) (alternatives cl) ++ clause_rows (S c) cls
    end.
  Definition rows : list clause -> list row := clause_rows 0.

  (** [accepts r vs bs]: the row matches and its guard holds. *)
  Definition accepts (r : row) (vs : list val) (bs : list (text * val)) : Prop :=
    patterns_match (row_patterns r) vs bs /\ (row_guard r <> None -> guards (row_clause r) bs = true).
  (** The first of the rows that accepts the values. *)
  Definition selects (cls : list clause) (vs : list val) (r : row) (bs : list (text * val)) : Prop :=
    exists before after, rows cls = before ++ r :: after /\ accepts r vs bs /\
      (forall r' bs', In r' before -> ~ accepts r' vs bs').

  (** ** Running a decision tree *)
  Definition store := nat -> val.
  Fixpoint bind_all (bs : list (nat * val)) (st : store) : store :=
    match bs with
    | [] => st
    | (i, v) :: bs => bind_all bs (fun j => if Nat.eqb j i then v else st j)
    end.
  Definition text_of (s : text) : text := convert_string_escape_chars s.

  (** Whether a check succeeds, and what its variables are then. *)
  Definition passes (c : check) (v : val) : option (list (nat * val)) :=
    match c, v with
    | IsInt z, VInt z' => if Z.eq_dec z z' then Some [] else None
    | IsFloat f, VFloat f' => if N.eq_dec f f' then Some [] else None
    | IsString s, VString s' => if list_eq_dec N.eq_dec (text_of s) s' then Some [] else None
    | IsStringPrefix p rest, VString s =>
        if list_eq_dec N.eq_dec (text_of p) (firstn (length (text_of p)) s)
        then Some [(id rest, VString (skipn (length (text_of p)) s))] else None
    | IsTuple n vars, VTuple vs => Some (combine (map id vars) vs)
    | IsBitArray t, VBits b => if holds outside float_is finite b t then Some [] else None
    | IsVariant _ i _ vars, VVariant j vs => if Nat.eq_dec i j then Some (combine (map id vars) vs) else None
    | IsNonEmptyList first rest, VList (v :: vs) => Some [(id first, v); (id rest, VList vs)]
    | IsEmptyList, VList [] => Some []
    | _, _ => None
    end.
  Definition bound_value_of (st : store) (b : bound_value) : val :=
    match b with
    | BVariable v => st (id v)
    | BLiteralString s => VString (text_of s)
    | BLiteralInt z => VInt z
    | BLiteralFloat f => float_value f
    | BBitArraySlice v r =>
        match st (id v) with
        | VBits b =>
            match read_of outside b r with
            | Some c =>
                let 'ReadAction _ _ t e signed := r in segment_value t e signed c
            | None => VOther 0
            end
        | _ => VOther 0
        end
    | BStringSlice v p =>
        match st (id v) with
        | VString s => VString (skipn (length (text_of p)) s)
        | _ => VOther 0
        end
    end.
  Definition body_values (st : store) (b : body) : list (text * val) :=
    map (fun '(n, v) => (n, bound_value_of st v)) (body_bindings b).

  (** The clause that a tree runs, and its variables.  The last check of an exhaustive switch
      is not performed, its variables are bound. *)
  Fixpoint run (d : decision) (st : store) : option (nat * list (text * val)) :=
    match d with
    | Run b => Some (body_clause b, body_values st b)
    | Guard g b d => if guards g (body_values st b) then Some (body_clause b, body_values st b) else run d st
    | Switch v cs fb fc =>
        (fix choose cs :=
           match cs with
           | [] =>
               match fc with
               | FallbackRuntimeCheck c =>
                   match passes c (st (id v)) with Some bs => run fb (bind_all bs st) | None => None end
               | InfiniteCatchAll | CatchAll _ => run fb st
               end
           | (c, d) :: cs =>
               match passes c (st (id v)) with Some bs => run d (bind_all bs st) | None => choose cs end
           end) cs
    | Fail => None
    end.
  (** The subjects are the first variables. *)
  Definition subjects_store (vs : list val) : store := fun i => nth i vs (VOther 0).
End Semantics.

(** ** Where the compiler goes wrong

    The tree is only proved right when the following hold; P_Case.v has counterexamples. *)

(** A code point has one way to be written. *)
Definition tidy_piece (c : N) : text :=
  if (c =? 10)%N then [92; 110]%N else if (c =? 13)%N then [92; 114]%N
  else if (c =? 12)%N then [92; 102]%N else if (c =? 9)%N then [92; 116]%N
  else if (c =? 34)%N then [92; 34]%N else if (c =? 92)%N then [92; 92]%N else [c].
Definition tidy (s : text) : Prop := exists m, s = flat_map tidy_piece m.

(** No alias of a literal in a bit array, no segment whose literal does not fit, no size that
    may be negative. *)
Definition plain_segment (s : segment) : Prop :=
  forall n p, value s = PAssign n p -> exists m, p = PDiscard m.
Definition fitting_segments (segs : list segment) : Prop :=
  forall v r, In (Match v r) (bit_array_to_tests segs) -> is_impossible_segment v = false.
Definition sized_segments (outside : text -> Z) (segs : list segment) : Prop :=
  forall t b, In t (bit_array_to_tests segs) -> sizes_nonneg outside b t.

(** [nested]: inside a pattern, prefixes have no name and a bit array is not just
    [<<rest:bits>>]. *)
Inductive simple (outside : text -> Z) : bool -> source -> Prop :=
  | simple_discard nested : simple outside nested TPDiscard
  | simple_variable nested n : simple outside nested (TPVariable n)
  | simple_assign nested n p : simple outside nested p -> simple outside nested (TPAssign n p)
  | simple_int nested z : simple outside nested (TPInt z)
  | simple_float nested f : simple outside nested (TPFloat f)
  | simple_string nested s : tidy s -> simple outside nested (TPString s)
  | simple_prefix nested s l r : tidy s -> (nested = true -> l = None) ->
      simple outside nested (TPStringPrefix s l r)
  | simple_bit_array nested segs : Forall plain_segment segs -> fitting_segments segs ->
      sized_segments outside segs ->
      (nested = true -> forall s, segs = [s] -> takes_rest s = false) ->
      simple outside nested (TPBitArray segs)
  | simple_tuple nested ps : Forall (simple outside true) ps -> simple outside nested (TPTuple ps)
  | simple_list nested ps tail : Forall (simple outside true) ps -> simple outside nested (TPList ps tail)
  | simple_constructor nested i used name module ps : Forall (simple outside true) ps ->
      simple outside nested (TPConstructor i used name module ps).

(** Patterns that always match. *)
Inductive irrefutable : source -> Prop :=
  | irrefutable_discard : irrefutable TPDiscard
  | irrefutable_variable n : irrefutable (TPVariable n)
  | irrefutable_assign n p : irrefutable p -> irrefutable (TPAssign n p)
  | irrefutable_tuple ps : Forall irrefutable ps -> irrefutable (TPTuple ps)
  | irrefutable_tail p : irrefutable p -> irrefutable (TPList [] (Some p)).

(** [meets p q sibs p' q']: [p'] and [q'] are at the same place in [p] and [q]; [sibs] are the
    patterns of [p] beside the way there. *)
Inductive meets : source -> source -> list source -> source -> source -> Prop :=
  | meets_here p q : meets p q [] p q
  | meets_assign n p q sibs p' q' : meets p q sibs p' q' -> meets (TPAssign n p) q sibs p' q'
  | meets_assigned n p q sibs p' q' : meets p q sibs p' q' -> meets p (TPAssign n q) sibs p' q'
  | meets_tuple ps1 p ps2 qs1 q qs2 sibs p' q' : length ps1 = length qs1 -> meets p q sibs p' q' ->
      meets (TPTuple (ps1 ++ p :: ps2)) (TPTuple (qs1 ++ q :: qs2)) (ps1 ++ ps2 ++ sibs) p' q'
  | meets_constructor i u n m u' n' m' ps1 p ps2 qs1 q qs2 sibs p' q' : length ps1 = length qs1 ->
      meets p q sibs p' q' ->
      meets (TPConstructor i u n m (ps1 ++ p :: ps2)) (TPConstructor i u' n' m' (qs1 ++ q :: qs2))
            (ps1 ++ ps2 ++ sibs) p' q'
  | meets_list t t' ps1 p ps2 qs1 q qs2 sibs p' q' : length ps1 = length qs1 -> meets p q sibs p' q' ->
      meets (TPList (ps1 ++ p :: ps2) t) (TPList (qs1 ++ q :: qs2) t') (ps1 ++ TPList ps2 t :: sibs) p' q'.

(** A string or a prefix, and a shorter prefix of it. *)
Inductive string_clash : source -> source -> Prop :=
  | clash_string s p l r : starts_with p s = true -> string_clash (TPString s) (TPStringPrefix p l r).
Inductive prefix_clash : source -> source -> Prop :=
  | clash_prefix s l r p l' r' : starts_with p s = true -> p <> s ->
      prefix_clash (TPStringPrefix s l r) (TPStringPrefix p l' r').

(** When an earlier row has a string where a later one has a prefix of it, the earlier one
    must have nothing else that could fail; between prefixes, a guard that uses the variables
    of the pattern is fine too. *)
Definition guard_uses_bindings (r : row) : Prop :=
  exists referenced n p, row_guard r = Some referenced /\ In n referenced /\
    In p (row_patterns r) /\ In n (bound_variables p).
Definition only_string (r : row) (others sibs : list source) : Prop :=
  row_guard r = None /\ Forall irrefutable others /\ Forall irrefutable sibs.
Definition compatible (r r' : row) : Prop :=
  forall before p after before' q after' sibs p' q',
    row_patterns r = before ++ p :: after -> row_patterns r' = before' ++ q :: after' ->
    length before = length before' -> meets p q sibs p' q' ->
    (string_clash p' q' -> only_string r (before ++ after) sibs) /\
    (prefix_clash p' q' -> only_string r (before ++ after) sibs \/ guard_uses_bindings r).
Definition no_clash (cls : list clause) : Prop :=
  forall l1 r l2 r' l3, rows cls = l1 ++ r :: l2 ++ r' :: l3 -> compatible r r'.

(** What the type checker guarantees of a [case], and what is assumed on top of it. *)
Definition well_typed (env : environment) (subjects : list ctype) (cls : list clause) : Prop :=
  forall r, In r (rows cls) -> Forall2 (pattern_type env) subjects (row_patterns r).
Definition simple_case (outside : text -> Z) (cls : list clause) : Prop :=
  (forall r, In r (rows cls) -> Forall (simple outside false) (row_patterns r)) /\ no_clash cls.
