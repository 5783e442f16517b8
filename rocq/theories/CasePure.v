(** The compiler of Case.v without an arena: patterns are trees.  Used in the proofs only;
    CaseRefine.v shows that the model computes the same. *)
From Coq Require Import ZArith NArith Bool List Lia.
From Verif Require Import Text Strings Bits Case.
Import ListNotations.

Inductive tree := T (p : pattern tree).
Definition un (t : tree) : pattern tree := let 'T p := t in p.

Section TreeInd.
  Context (Q : tree -> Prop).
  Definition subtrees (p : pattern tree) : list tree :=
    match p with
    | AStringPrefix _ _ r => [r]
    | AAssign _ q => [q]
    | ATuple ps | AVariant _ _ _ _ ps => ps
    | ANonEmptyList a r => [a; r]
    | _ => []
    end.
  Context (step : forall p, Forall Q (subtrees p) -> Q (T p)).
  Fixpoint tree_ind' (t : tree) : Q t.
  Proof.
    destruct t as [p]. apply step. destruct p; cbn; try (constructor; fail); try (repeat constructor; apply tree_ind').
    - induction elements; constructor; [apply tree_ind'|assumption].
    - induction fields; constructor; [apply tree_ind'|assumption].
  Defined.
End TreeInd.

Fixpoint tree_of (p : source) : tree :=
  match p with
  | TPInvalid | TPDiscard => T ADiscard
  | TPInt z => T (AInt z)
  | TPFloat f => T (AFloat f)
  | TPString s => T (AString s)
  | TPVariable n => T (AVariable n)
  | TPAssign n p => T (AAssign n (tree_of p))
  | TPTuple ps => T (ATuple (map tree_of ps))
  | TPList ps tail =>
      fold_right (fun p t => T (ANonEmptyList p t))
                 (match tail with Some p => tree_of p | None => T AEmptyList end) (map tree_of ps)
  | TPConstructor i u n m ps => T (AVariant i u n m (map tree_of ps))
  | TPBitArray ss => T (ABitArray (bit_array_to_tests ss))
  | TPStringPrefix prefix prefix_name rest_name =>
      T (AStringPrefix prefix prefix_name
           (T match rest_name with Some n => AVariable n | None => ADiscard end))
  end.

Fixpoint pmove (v : cvar) (t : tree) (b : body) : out (option (cvar * tree) * body) :=
  match t with
  | T (AVariable n) => Done (None, assign n (BVariable v) b)
  | T ADiscard => Done (None, b)
  | T (AAssign n q) => pmove v q (assign n (BVariable v) b)
  | T (AStringPrefix prefix (Some n) rest) =>
      Done (Some (v, T (AStringPrefix prefix None rest)), assign n (BLiteralString prefix) b)
  | T (ABitArray ts) =>
      let* '(ts, b) := move_tests v ts b in
      match ts with
      | [] => Done (None, b)
      | _ => Done (Some (v, T (ABitArray ts)), b)
      end
  | T (AStringPrefixSlice prefix prefix_name rest_name) =>
      let b := match prefix_name with Some n => assign n (BLiteralString prefix) b | None => b end in
      let b := match rest_name with Some n => assign n (BStringSlice v prefix) b | None => b end in
      Done (None, b)
  | T (AStringPrefix _ None _) | T (AInt _ | AFloat _ | AString _ | ATuple _ | AVariant _ _ _ _ _ | ANonEmptyList _ _ | AEmptyList) =>
      Done (Some (v, t), b)
  end.
Fixpoint pmove_checks (cs : list (cvar * tree)) (b : body) : out (list (cvar * tree) * body) :=
  match cs with
  | [] => Done ([], b)
  | (v, p) :: cs =>
      let* '(c, b) := pmove v p b in
      let* '(cs, b) := pmove_checks cs b in Done (option_list c ++ cs, b)
  end.
Definition pmove_branch (br : branch tree) : out (branch tree) :=
  let* '(cs, b) := pmove_checks (checks br) (branch_body br) in
  Done (Branch (clause_index br) (alternative_index br) cs (guard br) b).
Fixpoint pmove_all (bs : list (branch tree)) : out (list (branch tree)) :=
  match bs with
  | [] => Done []
  | b :: bs => let* b := pmove_branch b in let* bs := pmove_all bs in Done (b :: bs)
  end.

Definition pnew_checks (subject : cvar) (p : pattern tree) (c : check) : out (list (cvar * tree)) :=
  match p, c with
  | (ADiscard | AAssign _ _ | AVariable _ | AInt _ | AFloat _ | ABitArray _ | AEmptyList), _ => Done []
  | AString _, IsString _ => Done []
  | ANonEmptyList p q, IsNonEmptyList first rest => Done [(first, p); (rest, q)]
  | AVariant _ _ _ _ ps, IsVariant _ _ _ vs => Done (combine vs ps)
  | ATuple ps, IsTuple _ vs => Done (combine vs ps)
  | AString value, IsStringPrefix prefix rest =>
      let remaining := match strip_prefix prefix value with Some r => r | None => value end in
      Done [(rest, T (AString remaining))]
  | AStringPrefix prefix1 prefix_name rest1, IsStringPrefix prefix0 rest0 =>
      match strip_prefix prefix0 prefix1 with
      | Some [] => Done [(rest0, rest1)]
      | Some remaining => Done [(rest0, T (AStringPrefix remaining None rest1))]
      | None =>
          match prefix_name, un rest1 with
          | None, ADiscard => Done []
          | _, ADiscard => Done [(subject, T (AStringPrefixSlice prefix1 prefix_name None))]
          | _, AVariable n => Done [(subject, T (AStringPrefixSlice prefix1 prefix_name (Some n)))]
          | _, _ => Panic
          end
      end
  | _, _ => Panic
  end.

Fixpoint padd_to_choices (v : cvar) (p : pattern tree) (br : branch tree) (overlapping : list nat)
    (cs : list (check * list (branch tree))) : out (list (check * list (branch tree))) :=
  match overlapping with
  | [] => Done cs
  | i :: overlapping =>
      match nth_error cs i with
      | None => Panic
      | Some (c, _) =>
          let* new := pnew_checks v p c in
          padd_to_choices v p br overlapping (push_choice i (add_checks br new) cs)
      end
  end.

Definition padd_bits (v : cvar) (ts : list test) (br : branch tree) (s : splitter tree) : out (splitter tree) :=
  let* '(pivot, s) :=
    match choices s with
    | [] =>
        match ts with
        | [] => Panic
        | t :: _ => Done (t, with_choices s [(IsBitArray t, [])])
        end
    | [(IsBitArray t, _)] => Done (t, s)
    | _ => Panic
    end in
  let s :=
    if existsb (fun t => fails_if_succeeding t pivot) ts then s
    else
      with_choices s
        (push_choice 0
           (add_checks br [(v, T (ABitArray (filter (fun t => negb (succeeds_if_succeeding t pivot)) ts)))])
           (choices s)) in
  let s :=
    if existsb (fun t => fails_if_failing t pivot) ts then s
    else Splitter (choices s) (fallback s ++ [add_checks br [(v, T (ABitArray ts))]]) (indices s) (prefix_indices s) in
  Done s.

Definition padd_checked (v : cvar) (p : pattern tree) (br : branch tree) (m : branch_mode)
    (s : splitter tree) (x : context) : out (splitter tree * context) :=
  match p with
  | ABitArray ts => let* s := padd_bits v ts br s in Done (s, x)
  | p =>
      match to_runtime_check_kind p with
      | None => Panic
      | Some k =>
          let '(overlapping, needs_new_choice) := check_overlaps s k in
          let* cs := padd_to_choices v p br overlapping (choices s) in
          let s := with_choices s cs in
          let* '(s, x) :=
            if needs_new_choice then
              let s := save_index_of_new_choice k s in
              let* '(c, x) := fresh_runtime_check k m x in
              let* new := pnew_checks v p c in
              Done (with_choices s (choices s ++ [(c, fallback s ++ [add_checks br new])]), x)
            else Done (s, x) in
          Done (name_variants p overlapping s, x)
      end
  end.

Fixpoint psplit (pivot : cvar) (m : branch_mode) (bs : list (branch tree))
    (s : splitter tree) (x : context) : out (splitter tree * context) :=
  match bs with
  | [] => Done (s, x)
  | br :: bs =>
      match pop_check pivot (checks br) with
      | None => psplit pivot m bs (add_fallback_branch br s) x
      | Some ((v, T p), cs) =>
          let br := with_checks br cs in
          if is_matching_on_unreachable_variant p m then
            psplit pivot m bs s (mark_as_matching_impossible_variant (branch_id br) x)
          else if is_matching_on_impossible_segment p then
            psplit pivot m bs s (mark_as_matching_impossible_segment (branch_id br) x)
          else
            let* '(s, x) := padd_checked v p br m s x in psplit pivot m bs s x
      end
  end.

Section Compile.
  Context (env : environment).
  Definition psplit_and_compile (compile : list (branch tree) -> context -> out (decision * context))
      (pivot : cvar) (bs : list (branch tree)) (x : context) : out (decision * context) :=
    let* m := mode_of env (var_type pivot) in
    let* '(known, x) := known_checks m x in
    let* '(s, x) := psplit pivot m bs (from_checks known) x in
    if is_infinite m then compile_switch compile pivot (choices s) (fallback s) InfiniteCatchAll x
    else if is_empty (choices s) then Done (Fail, mark_missing x)
    else
      let* '(cs, fb, fc) := exhaustive_parts s in
      compile_switch compile pivot cs fb fc x.

  Fixpoint pcompile (fuel : nat) (bs : list (branch tree)) (x : context) : out (decision * context) :=
    match fuel with
    | O => OutOfFuel
    | S fuel =>
        let* bs := pmove_all bs in
        match bs with
        | [] => Done (Fail, mark_missing x)
        | first :: others =>
            let x := mark_as_reached (branch_id first) x in
            let* pivot := find_pivot env first bs in
            match pivot with
            | Some v => psplit_and_compile (pcompile fuel) v bs x
            | None =>
                match guard first with
                | None => Done (Run (branch_body first), x)
                | Some g =>
                    let* '(d, x) := pcompile fuel others x in
                    Done (Guard (guard_clause g) (branch_body first) d, x)
                end
            end
        end
    end.
End Compile.
