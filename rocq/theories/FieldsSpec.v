(** Calls with labelled arguments, independently of how they are reordered. *)
From Coq Require Import Bool List Permutation.
From Verif Require Import Text Fields.
Import ListNotations.

(** ** Declarations *)

(** A parameter list is legal if labels are distinct and come last. *)
Definition labels_of (params : list (option text)) : list text :=
  flat_map (fun l => match l with Some l => [l] | None => [] end) params.
Definition labels_last (params : list (option text)) : Prop :=
  exists n labels, params = repeat None n ++ map Some labels.
Definition legal_parameters (params : list (option text)) : Prop :=
  labels_last params /\ NoDup (labels_of params).

(** The parameters a field map stands for: [l] is the label of parameter [p]. *)
Definition describes (fm : field_map) (params : list (option text)) : Prop :=
  arity fm = length params
  /\ forall l p, In (l, p) (fields fm) <-> nth_error params p = Some (Some l).

(** A field map without conflicts. *)
Definition consistent (fm : field_map) : Prop :=
  NoDup (map fst (fields fm)) /\ NoDup (map snd (fields fm))
  /\ forall l p, In (l, p) (fields fm) -> p < arity fm.

(** ** Calls *)
Section Call.
Context {A : Type}.
Implicit Types args : list (call_arg A).

Definition known (fm : field_map) (l : text) : Prop := In l (map fst (fields fm)).

(** An argument in its place: after a labelled argument only labelled or implicit
    arguments may come. *)
Definition misplaced args (a : call_arg A) : Prop :=
  exists before after, args = before ++ a :: after
    /\ label a = None /\ implicit a = None /\ exists b, In b before /\ label b <> None.

(** [l] is given twice. *)
Definition repeated args (l : text) : Prop :=
  exists a b c x y, args = a ++ x :: b ++ y :: c /\ label x = Some l /\ label y = Some l.

Definition acceptable (fm : field_map) args : Prop :=
  length args = arity fm
  /\ (forall a, ~ misplaced args a)
  /\ (forall a l, In a args -> label a = Some l -> known fm l)
  /\ (forall l, ~ repeated args l).

(** The arguments in the order of the parameters. *)
Definition arranged (fm : field_map) args (result : list (call_arg A)) : Prop :=
  Permutation result args
  /\ (forall a l p, In a args -> label a = Some l -> In (l, p) (fields fm) -> nth_error result p = Some a)
  /\ filter (fun a => negb (is_labelled a)) result = filter (fun a => negb (is_labelled a)) args.
End Call.

(** ** Errors of a declaration: each parameter is compared with those before it. *)
Inductive declaration_errors : list (option text) -> list (option text * (nat * nat)) -> list error -> Prop :=
| DE_nil earlier : declaration_errors earlier [] []
| DE_duplicate earlier l loc params es : In (Some l) earlier ->
    declaration_errors (earlier ++ [Some l]) params es ->
    declaration_errors earlier ((Some l, loc) :: params) (DuplicateField loc l :: es)
| DE_labelled earlier l loc params es : ~ In (Some l) earlier ->
    declaration_errors (earlier ++ [Some l]) params es ->
    declaration_errors earlier ((Some l, loc) :: params) es
| DE_unlabelled_after earlier loc params es : (exists l, In (Some l) earlier) ->
    declaration_errors (earlier ++ [None]) params es ->
    declaration_errors earlier ((None, loc) :: params) (UnlabelledAfterLabelled loc :: es)
| DE_unlabelled earlier loc params es : ~ (exists l, In (Some l) earlier) ->
    declaration_errors (earlier ++ [None]) params es ->
    declaration_errors earlier ((None, loc) :: params) es.
