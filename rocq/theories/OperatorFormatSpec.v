(** What formatting must keep: the code without its places. *)
From Coq Require Import NArith Bool List.
From Verif Require Import Text Operators.
Import ListNotations.
Local Open Scope N_scope.

Inductive code :=
  | CUnit (n : N)
  | CNegateInt (c : code)
  | CNegateBool (c : code)
  | CBlock (c : code)
  | COp (o : binop) (l r : code)
  | CPipeline (first : code) (others : list code).
Fixpoint code_of (e : expr) : code :=
  match e with
  | EUnit _ n | EList _ n => CUnit n
  | ENegateInt _ v => CNegateInt (code_of v)
  | ENegateBool _ v => CNegateBool (code_of v)
  | EBlock _ v => CBlock (code_of v)
  | EBinOp _ o _ l r => COp o (code_of l) (code_of r)
  | EPipeline f os => CPipeline (code_of f) (map code_of os)
  end.
(** Two negations in a row are nothing. *)
Fixpoint simplify (c : code) : code :=
  match c with
  | CUnit n => CUnit n
  | CNegateInt v => match v with CNegateInt w => simplify w | _ => CNegateInt (simplify v) end
  | CNegateBool v => match v with CNegateBool w => simplify w | _ => CNegateBool (simplify v) end
  | CBlock v => CBlock (simplify v)
  | COp o l r => COp o (simplify l) (simplify r)
  | CPipeline f os => CPipeline (simplify f) (map simplify os)
  end.
(** No negation of one kind right below a negation of the other kind. *)
Fixpoint negations_do_not_mix (c : code) : Prop :=
  match c with
  | CUnit _ => True
  | CNegateInt v => match v with CNegateBool _ => False | _ => True end /\ negations_do_not_mix v
  | CNegateBool v => match v with CNegateInt _ => False | _ => True end /\ negations_do_not_mix v
  | CBlock v => negations_do_not_mix v
  | COp _ l r => negations_do_not_mix l /\ negations_do_not_mix r
  | CPipeline f os => negations_do_not_mix f /\ fold_right (fun c P => negations_do_not_mix c /\ P) True os
  end.
