(** What commands should notice. *)
From Coq Require Import Arith NArith Bool List.
From Verif Require Import Text Resolve Fingerprint.
Import ListNotations.
Local Open Scope list_scope.

(** The text of gleam.toml of a path dependency, if there is one. *)
Definition has_text (files : configs) (p t : text) : Prop := exists m, get p files = Some (t, m).

(** The requirements in any order, as maps give them. *)
Definition order_of (l order : requirements) : Prop := NoDup (map fst order) /\ forall n r, In (n, r) order <-> In (n, r) l.

(** The texts that were written, with the time. *)
Definition writes (l : list event) : list (text * text) :=
  flat_map (fun e => match e with Write p t _ => [(p, t)] | _ => [] end) l.

(** Files have the time at which they are written, which goes on. *)
Fixpoint timely (time : nat) (l : list event) : Prop :=
  match l with
  | [] => True
  | Write _ _ m :: l => m = time /\ timely (S time) l
  | _ :: l => timely (S time) l
  end.
Definition all_succeed (l : list event) : Prop :=
  forall use updates succeeds order, In (Run use updates succeeds order) l -> succeeds = true.
(** Nothing is written that was before. *)
Definition always_new (l : list event) : Prop := NoDup (map snd (writes l)).
