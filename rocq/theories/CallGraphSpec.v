(** When does a definition of a module use another one?  Written from the scoping rules of the
    type checker (type_/expression.rs, type_/pattern.rs), not from the graph.

    The rules come in three strengths.  [Language]: the rules of the language.  [Counted]: the same
    uses, without three kinds of them that the graph misses.  [Possible]: some more uses. *)
From Coq Require Import NArith Bool List.
From Verif Require Import Text CallGraph.
Import ListNotations.

Inductive strength := Counted | Language | Possible.

(** ** The names a pattern binds *)
Definition option_list {A} (o : option A) : list A := match o with Some a => [a] | None => [] end.
Inductive binds (k : strength) : pattern -> text -> Prop :=
  | b_prefix n r : k <> Possible -> binds k (PPrefix (Some n) r) n
  | b_rest n l : binds k (PPrefix l (Some n)) n
  | b_variable n : binds k (PVariable n) n
  | b_tuple ps p n : In p ps -> binds k p n -> binds k (PTuple ps) n
  | b_list ps t p n : In p ps -> binds k p n -> binds k (PList ps t) n
  | b_tail ps p n : binds k p n -> binds k (PList ps (Some p)) n
  | b_assign n p : binds k (PAssign n p) n
  | b_assigned m p n : binds k p n -> binds k (PAssign m p) n
  | b_constructor ps p n : In p ps -> binds k p n -> binds k (PConstructor ps) n
  | b_segment segs os p n : In (os, p) segs -> binds k p n -> binds k (PBitArray segs) n.
Definition some_binds (k : strength) (ps : list pattern) (n : text) : Prop :=
  exists p, In p ps /\ binds k p n.

(** ** Uses; [sh] holds of the names of the local variables in scope *)
Definition names_ := text -> Prop.
Definition also (sh : names_) (more : text -> Prop) : names_ := fun n => sh n \/ more n.

Inductive size_uses (sh : names_) : size -> text -> Prop :=
  | su_variable n : ~ sh n -> size_uses sh (SVariable n) n
  | su_left l r n : size_uses sh l n -> size_uses sh (SOperator l r) n
  | su_right l r n : size_uses sh r n -> size_uses sh (SOperator l r) n
  | su_block s n : size_uses sh s n -> size_uses sh (SBlock s) n.

(** The variables of a pattern are not in scope in the pattern itself, except that a size of a bit
    array can use the variables of the earlier segments of that bit array (type_/pattern.rs
    418-450, 1383-1430).  [before] holds of the names bound further to the left in the pattern: the
    uses of those are not [Counted]. *)
Inductive pattern_uses (k : strength) (sh : names_) : (text -> Prop) -> pattern -> text -> Prop :=
  | pu_tuple before ps qs p n :
      pattern_uses k sh (also before (some_binds k ps)) p n -> pattern_uses k sh before (PTuple (ps ++ p :: qs)) n
  | pu_list before ps qs p t n :
      pattern_uses k sh (also before (some_binds k ps)) p n -> pattern_uses k sh before (PList (ps ++ p :: qs) t) n
  | pu_tail before ps p n :
      pattern_uses k sh (also before (some_binds k ps)) p n -> pattern_uses k sh before (PList ps (Some p)) n
  | pu_assigned before m p n :
      pattern_uses k sh (also before (eq m)) p n -> pattern_uses k sh before (PAssign m p) n
  | pu_constructor before ps qs p n :
      pattern_uses k sh (also before (some_binds k ps)) p n ->
      pattern_uses k sh before (PConstructor (ps ++ p :: qs)) n
  | pu_option before segs segs' os o p n :
      (** A size option of a segment. *)
      In o os -> size_uses (also sh (some_binds k (map snd segs))) o n ->
      (k = Counted -> ~ before n) ->
      pattern_uses k sh before (PBitArray (segs ++ (os, p) :: segs')) n
  | pu_segment before segs segs' os p n :
      pattern_uses k (also sh (some_binds k (map snd segs))) before p n ->
      pattern_uses k sh before (PBitArray (segs ++ (os, p) :: segs')) n.
Definition nothing : text -> Prop := fun _ => False.
(** Several patterns of one clause. *)
Inductive patterns_use (k : strength) (sh : names_) : list pattern -> text -> Prop :=
  | psu ps p qs n : pattern_uses k sh (some_binds k ps) p n -> patterns_use k sh (ps ++ p :: qs) n.

Inductive constant_uses (sh : names_) : constant -> text -> Prop :=
  | cu_todo c n : constant_uses sh c n -> constant_uses sh (CTodo (Some c)) n
  | cu_list es t c n : In c es -> constant_uses sh c n -> constant_uses sh (CList es t) n
  | cu_tail es c n : constant_uses sh c n -> constant_uses sh (CList es (Some c)) n
  | cu_tuple es c n : In c es -> constant_uses sh c n -> constant_uses sh (CTuple es) n
  | cu_record es c n : In c es -> constant_uses sh c n -> constant_uses sh (CRecord (Some es)) n
  | cu_base b es n : constant_uses sh b n -> constant_uses sh (CRecordUpdate b es) n
  | cu_update b es c n : In c es -> constant_uses sh c n -> constant_uses sh (CRecordUpdate b es) n
  | cu_var n : ~ sh n -> constant_uses sh (CVar n) n
  | cu_option segs os o c n : In (os, c) segs -> In o os -> constant_uses sh o n -> constant_uses sh (CBitArray segs) n
  | cu_segment segs os c n : In (os, c) segs -> constant_uses sh c n -> constant_uses sh (CBitArray segs) n
  | cu_left l r n : constant_uses sh l n -> constant_uses sh (COperator l r) n
  | cu_right l r n : constant_uses sh r n -> constant_uses sh (COperator l r) n.
Inductive guard_uses (k : strength) (sh : names_) : guard -> text -> Prop :=
  | gu_left l r n : guard_uses k sh l n -> guard_uses k sh (GOperator l r) n
  | gu_right l r n : guard_uses k sh r n -> guard_uses k sh (GOperator l r) n
  | gu_unary g n : guard_uses k sh g n -> guard_uses k sh (GUnary g) n
  | gu_var n : ~ sh n -> guard_uses k sh (GVar n) n
  | gu_module n : k = Possible -> ~ sh n -> guard_uses k sh (GModuleSelect n) n
  | gu_constant c n : constant_uses sh c n -> guard_uses k sh (GConstant c) n.

(** What a statement brings into scope for the statements after it. *)
Definition statement_binds (k : strength) (s : statement) : text -> Prop :=
  match s with
  | SAssignment p _ _ => binds k p
  | SUse _ ps => some_binds k ps
  | _ => nothing
  end.
Definition statements_bind (k : strength) (ss : list statement) (n : text) : Prop :=
  exists s, In s ss /\ statement_binds k s n.

(** The patterns of a [use] are the arguments of an anonymous function; the ones that are not
    plain variables are matched one after another in its body.  ([Possible]: the variables to the
    right do not count yet.) *)
Definition use_scope (k : strength) (ps qs : list pattern) : text -> Prop :=
  fun n => some_binds k ps n \/ (k <> Possible /\ In (PVariable n) qs).

Inductive uses (k : strength) (sh : names_) : expr -> text -> Prop :=
  | u_message m n : uses k sh m n -> uses k sh (EMessage (Some m)) n
  | u_echo e m n : uses k sh e n -> uses k sh (EEcho (Some e) m) n
  | u_echo_message e m n : uses k sh m n -> uses k sh (EEcho e (Some m)) n
  | u_var n : ~ sh n -> uses k sh (EVar n) n
  | u_callee f es n : uses k sh f n -> uses k sh (ECall f es) n
  | u_argument f es e n : In e es -> uses k sh e n -> uses k sh (ECall f es) n
  | u_pipeline es e n : In e es -> uses k sh e n -> uses k sh (EPipeline es) n
  | u_tuple es e n : In e es -> uses k sh e n -> uses k sh (ETuple es) n
  | u_block ss n : statements_use k sh ss n -> uses k sh (EBlock ss) n
  | u_left l r n : uses k sh l n -> uses k sh (EOperator l r) n
  | u_right l r n : uses k sh r n -> uses k sh (EOperator l r) n
  | u_list es t e n : In e es -> uses k sh e n -> uses k sh (EList es t) n
  | u_tail es e n : uses k sh e n -> uses k sh (EList es (Some e)) n
  | u_unary e n : uses k sh e n -> uses k sh (EUnary e) n
  | u_segment segs e os n : In (e, os) segs -> uses k sh e n -> uses k sh (EBitArray segs) n
  | u_option segs e os o n : In (e, os) segs -> In o os -> uses k sh o n -> uses k sh (EBitArray segs) n
  | u_base b es n : uses k sh b n -> uses k sh (ERecordUpdate b es) n
  | u_update b es e n : In e es -> uses k sh e n -> uses k sh (ERecordUpdate b es) n
  | u_fn args ss n : statements_use k (also sh (fun a => In (Some a) args)) ss n -> uses k sh (EFn args ss) n
  | u_subject es cs e n : In e es -> uses k sh e n -> uses k sh (ECase es cs) n
  | u_clause es cs c n : In c cs -> clause_uses k sh c n -> uses k sh (ECase es (Some cs)) n
with statements_use (k : strength) (sh : names_) : list statement -> text -> Prop :=
  | ssu ss s ss' n :
      statement_uses k (also sh (statements_bind k ss)) s n -> statements_use k sh (ss ++ s :: ss') n
with statement_uses (k : strength) (sh : names_) : statement -> text -> Prop :=
  | stu_expression e n : uses k sh e n -> statement_uses k sh (SExpression e) n
  | stu_value p e m n : uses k sh e n -> statement_uses k sh (SAssignment p e m) n
  | stu_pattern p e m n : pattern_uses k sh nothing p n -> statement_uses k sh (SAssignment p e m) n
  | stu_message p e m n :
      (** The message of a [let assert] is outside the scope of the pattern. *)
      uses k sh m n -> (k = Counted -> uses k (also sh (binds k p)) m n) ->
      statement_uses k sh (SAssignment p e (Some m)) n
  | stu_call e ps n : uses k sh e n -> statement_uses k sh (SUse e ps) n
  | stu_use e ps p qs n :
      pattern_uses k (also sh (use_scope k ps (p :: qs))) nothing p n -> statement_uses k sh (SUse e (ps ++ p :: qs)) n
  | stu_assert e m n : uses k sh e n -> statement_uses k sh (SAssert e m) n
  | stu_assert_message e m n : uses k sh m n -> statement_uses k sh (SAssert e (Some m)) n
with clause_uses (k : strength) (sh : names_) : clause -> text -> Prop :=
  | clu_pattern ps alts g e n : patterns_use k sh ps n -> clause_uses k sh (Clause ps alts g e) n
  | clu_alternative ps alts alt g e n :
      k <> Counted -> In alt alts -> patterns_use k sh alt n -> clause_uses k sh (Clause ps alts g e) n
  | clu_guard ps alts g e n :
      guard_uses k (also sh (some_binds k ps)) g n -> clause_uses k sh (Clause ps alts (Some g) e) n
  | clu_then ps alts g e n :
      uses k (also sh (some_binds k ps)) e n -> clause_uses k sh (Clause ps alts g e) n.

Scheme uses_mut := Minimality for uses Sort Prop
  with statements_use_mut := Minimality for statements_use Sort Prop
  with statement_uses_mut := Minimality for statement_uses Sort Prop
  with clause_uses_mut := Minimality for clause_uses Sort Prop.
Combined Scheme uses_all_mut from uses_mut, statements_use_mut, statement_uses_mut, clause_uses_mut.

Definition definition_uses (k : strength) (d : definition) (n : text) : Prop :=
  match d with
  | DFunction f => statements_use k (fun a => In (Some a) (f_arguments f)) (f_body f) n
  | DConstant c => constant_uses nothing (c_value c) n
  end.
Definition name_of (d : definition) : text :=
  match d with DFunction f => f_name f | DConstant c => c_name c end.
Definition location_of (d : definition) : span :=
  match d with DFunction f => f_location f | DConstant c => c_location c end.

(** ** Reachability and groups *)
Inductive reaches {A} (step : A -> A -> Prop) : A -> A -> Prop :=
  | reaches_refl a : reaches step a a
  | reaches_step a b c : step a b -> reaches step b c -> reaches step a c.

(** What petgraph documents of [tarjan_scc]: each node is in one component; two nodes share one if
    and only if each reaches the other; no edge leads to a later component. *)
Definition edge (es : list (nat * nat)) (a b : nat) : Prop := In (a, b) es.
Definition at_level (levels : list (list nat)) (i a : nat) : Prop :=
  exists l, nth_error levels i = Some l /\ In a l.
Record scc_order (n : nat) (es : list (nat * nat)) (levels : list (list nat)) : Prop := {
  scc_once : NoDup (concat levels);
  scc_all : forall a, In a (concat levels) <-> a < n;
  scc_together : forall i j a b, at_level levels i a -> at_level levels j b ->
    (i = j <-> reaches (edge es) a b /\ reaches (edge es) b a);
  scc_first : forall i j a b, at_level levels i a -> at_level levels j b -> edge es a b -> j <= i }.
Definition in_range (n : nat) (es : list (nat * nat)) : Prop := forall a b, In (a, b) es -> a < n /\ b < n.
Definition finds_components (scc : nat -> list (nat * nat) -> list (list nat)) : Prop :=
  forall n es, in_range n es -> scc_order n es (scc n es).

(** The groups of the answer; one definition of a module uses another. *)
Definition in_group (groups : list (list definition)) (i : nat) (d : definition) : Prop :=
  exists g, nth_error groups i = Some g /\ In d g.
Definition one_uses (k : strength) (ds : list definition) (d d' : definition) : Prop :=
  In d ds /\ In d' ds /\ definition_uses k d (name_of d').
