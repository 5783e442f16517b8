(** Rules of [ErlangRun]. *)
From Coq Require Import String NArith ZArith List Bool Lia.
From Verif Require Import Text TextProofs ErlangSource Erl ErlangRun.
Import ListNotations.
Local Open Scope nat_scope.
Local Open Scope list_scope.

Lemma ends_S {A} (run : nat -> outcome A) r : ends (fun n => run (S n)) r -> ends run r.
Proof. intros (n0 & H). exists (S n0). intros [|n] N; [lia|]. apply H. lia. Qed.
Lemma ends_done {A} (r : history * (A + term)) : ends (fun _ => Some r) r.
Proof. exists 0. reflexivity. Qed.
Lemma ends_after {A B} (m : nat -> outcome A) (f : nat -> history -> A -> outcome B) h a r :
  ends m (h, inl a) -> ends (fun n => f n h a) r -> ends (fun n => after (m n) (f n)) r.
Proof.
  intros (n0 & H) (n1 & K). exists (n0 + n1). intros n N. rewrite (H n) by lia. cbn. apply K. lia.
Qed.
Lemma ends_raise {A B} (m : nat -> outcome A) (f : nat -> history -> A -> outcome B) h t :
  ends m (h, inr t) -> ends (fun n => after (m n) (f n)) (h, inr t).
Proof. intros (n0 & H). exists n0. intros n N. rewrite (H n) by lia. reflexivity. Qed.
Lemma ends_same {A} (run : nat -> outcome A) r r' : ends run r -> ends run r' -> r = r'.
Proof. intros (n & H) (n' & H'). specialize (H (n + n') ltac:(lia)). specialize (H' (n + n') ltac:(lia)). congruence. Qed.
Definition lift {A B} (f : A -> B) (r : history * (A + term)) : history * (B + term) :=
  (fst r, match snd r with inl a => inl (f a) | inr t => inr t end).
Lemma ends_lift {A B} (m : nat -> outcome A) (f : A -> B) r :
  ends m r -> ends (fun n => after (m n) (fun h a => done h (f a))) (lift f r).
Proof. destruct r as [h [a|t]]; intro H; [eapply ends_after; [exact H|]; apply ends_done|apply ends_raise, H]. Qed.
Lemma ends_ext {A} (run run' : nat -> outcome A) r : (forall n, run n = run' n) -> ends run r -> ends run' r.
Proof. intros E (n & H). exists n. intros k K. rewrite <- E. apply H, K. Qed.

Section Rules.
Context (forms : list form) (world : history -> text -> text -> list term -> option term).
Notation eval := (eval forms world).
Notation eval_list := (eval_list forms world).
Notation eval_segments := (eval_segments forms world).
Notation eval_body := (eval_body forms world).
Notation eval_clauses := (eval_clauses forms world).
Notation apply_ := (ErlangRun.apply forms world).

Definition runs (bound : env) (h : history) (e : erl) r := ends (fun n => eval n bound h e) r.
Definition list_runs (bound : env) (h : history) (l : list erl) r := ends (fun n => eval_list n bound h l) r.
Definition segments_run (bound : env) (h : history) l r := ends (fun n => eval_segments n bound h l) r.
Definition clauses_run (bound : env) (h : history) v l r := ends (fun n => eval_clauses n bound h v l) r.
Definition call_runs (h : history) f args r := ends (fun n => apply_ n h f args) r.

Lemma runs_var bound h x v : lookup x bound = Some v -> runs bound h (EVar x) (h, inl (v, [])).
Proof. intro H. apply ends_S. cbn. rewrite H. apply ends_done. Qed.
Lemma runs_atom bound h a : runs bound h (EAtom a) (h, inl (VAtom a, [])).
Proof. apply ends_S, ends_done. Qed.
Lemma runs_nat bound h z : runs bound h (EInt z) (h, inl (VInt (Z.of_N z), [])).
Proof. apply ends_S, ends_done. Qed.
Lemma runs_binary bound h t : runs bound h (EBinary t) (h, inl (VBinary t, [])).
Proof. apply ends_S, ends_done. Qed.
Lemma runs_nil bound h : runs bound h ENil (h, inl (VNil, [])).
Proof. apply ends_S, ends_done. Qed.
Lemma runs_fun bound h ps body : runs bound h (EFun ps body) (h, inl (VFun ps body bound, [])).
Proof. apply ends_S, ends_done. Qed.
Lemma runs_ref bound h m f a :
  runs bound h (EFunRef m f a) (h, inl (match m with Some m => VRemote m f a | None => VRef f a end, [])).
Proof. apply ends_S. destruct m; apply ends_done. Qed.

Lemma list_nil bound h : list_runs bound h [] (h, inl ([], [])).
Proof. apply ends_S, ends_done. Qed.
Lemma list_cons bound h e l h1 v b h2 vs bs : runs bound h e (h1, inl (v, b)) -> list_runs bound h1 l (h2, inl (vs, bs)) ->
  disjoint b bs = true -> list_runs bound h (e :: l) (h2, inl (v :: vs, bs ++ b)).
Proof.
  intros H K D. apply ends_S. cbn. eapply ends_after; [exact H|]. cbv beta. eapply ends_after; [exact K|]. cbn [fst snd]. rewrite D. apply ends_done.
Qed.
Lemma list_head bound h e l h1 t : runs bound h e (h1, inr t) -> list_runs bound h (e :: l) (h1, inr t).
Proof. intro H. apply ends_S. cbn. apply ends_raise. exact H. Qed.
Lemma list_tail bound h e l h1 v b h2 t : runs bound h e (h1, inl (v, b)) -> list_runs bound h1 l (h2, inr t) ->
  list_runs bound h (e :: l) (h2, inr t).
Proof. intros H K. apply ends_S. cbn. eapply ends_after; [exact H|]. cbv beta. apply ends_raise. exact K. Qed.

Lemma runs_tuple bound h l r : list_runs bound h l r -> runs bound h (ETuple l) (lift (fun q => (VTuple (fst q), snd q)) r).
Proof. intro H. apply ends_S. cbn. apply ends_lift with (f := fun q => (VTuple (fst q), snd q)). exact H. Qed.
Lemma runs_cons bound h a b h1 v w bs : list_runs bound h [a; b] (h1, inl ([v; w], bs)) ->
  runs bound h (ECons a b) (h1, inl (VCons v w, bs)).
Proof. intro H. apply ends_S. cbn. eapply ends_after; [exact H|]. apply ends_done. Qed.
Lemma runs_cons_fails bound h a b h1 t : list_runs bound h [a; b] (h1, inr t) -> runs bound h (ECons a b) (h1, inr t).
Proof. intro H. apply ends_S. cbn. apply ends_raise. exact H. Qed.

Lemma runs_map bound h l h1 ks bs h2 vs cs : list_runs bound h (map fst l) (h1, inl (ks, bs)) ->
  list_runs bound h1 (map snd l) (h2, inl (vs, cs)) -> disjoint bs cs = true ->
  runs bound h (EMap l) (h2, inl (VMap (List.combine ks vs), cs ++ bs)).
Proof. intros H K D. apply ends_S. cbn. eapply ends_after; [exact H|]. cbv beta. eapply ends_after; [exact K|]. cbn [fst snd]. rewrite D. apply ends_done. Qed.
Lemma runs_map_fails bound h l h1 ks bs h2 t : list_runs bound h (map fst l) (h1, inl (ks, bs)) ->
  list_runs bound h1 (map snd l) (h2, inr t) -> runs bound h (EMap l) (h2, inr t).
Proof. intros H K. apply ends_S. cbn. eapply ends_after; [exact H|]. cbv beta. apply ends_raise. exact K. Qed.

Definition is_estring (e : erl) : bool := match e with EString _ => true | _ => false end.
Definition bin : text * option N := (str "binary", None).
Definition utf8 : text * option N := (str "utf8", None).
Lemma segments_nil bound h : segments_run bound h [] (h, inl ([], [])).
Proof. apply ends_S, ends_done. Qed.
Lemma segments_literal bound h w l r : segments_run bound h l r ->
  segments_run bound h ((EString w, (None, [utf8])) :: l) (lift (fun q => (w ++ fst q, snd q)) r).
Proof.
  intro H. apply ends_S. apply ends_ext with (run := fun n => after (eval_segments n bound h l) (fun h q => done h (w ++ fst q, snd q))).
  - intro n. reflexivity.
  - apply ends_lift with (f := fun q => (w ++ fst q, snd q)). exact H.
Qed.
Lemma segments_step n bound h e l : is_estring e = false ->
  eval_segments (S n) bound h ((e, (None, [bin])) :: l) =
  after (eval n bound h e) (fun h r =>
              match fst r with
              | VBinary t =>
                  after (eval_segments n bound h l) (fun h q =>
                    if disjoint (snd r) (snd q) then done h (t ++ fst q, snd q ++ snd r) else None)
              | _ => None
              end).
Proof. destruct e; try discriminate; reflexivity. Qed.
Lemma segments_value bound h e l h1 t b h2 u bs : is_estring e = false -> runs bound h e (h1, inl (VBinary t, b)) ->
  segments_run bound h1 l (h2, inl (u, bs)) -> disjoint b bs = true ->
  segments_run bound h ((e, (None, [bin])) :: l) (h2, inl (t ++ u, bs ++ b)).
Proof.
  intros S H K D. apply ends_S. eapply ends_ext; [intro; symmetry; apply segments_step, S|].
  eapply ends_after; [exact H|]. cbn [fst snd]. eapply ends_after; [exact K|]. cbn [fst snd]. rewrite D. apply ends_done.
Qed.
Lemma segments_head bound h e l h1 t : is_estring e = false -> runs bound h e (h1, inr t) ->
  segments_run bound h ((e, (None, [bin])) :: l) (h1, inr t).
Proof.
  intros S H. apply ends_S. eapply ends_ext; [intro; symmetry; apply segments_step, S|]. apply ends_raise. exact H.
Qed.
Lemma segments_tail bound h e l h1 t b h2 u : is_estring e = false -> runs bound h e (h1, inl (VBinary t, b)) ->
  segments_run bound h1 l (h2, inr u) ->
  segments_run bound h ((e, (None, [bin])) :: l) (h2, inr u).
Proof.
  intros S H K. apply ends_S. eapply ends_ext; [intro; symmetry; apply segments_step, S|].
  eapply ends_after; [exact H|]. cbn. apply ends_raise. exact K.
Qed.
Lemma runs_bits bound h l r : segments_run bound h l r -> runs bound h (EBits l) (lift (fun q => (VBinary (fst q), snd q)) r).
Proof. intro H. apply ends_S. cbn. apply ends_lift with (f := fun q => (VBinary (fst q), snd q)). exact H. Qed.

Lemma call_remote bound h m f args h1 vs bs r : list_runs bound h args (h1, inl (vs, bs)) ->
  call_runs h1 (VRemote m f (N.of_nat (length args))) vs r ->
  runs bound h (ECall (ERemote (EAtom m) (EAtom f)) args) (lift (fun v => (v, bs)) r).
Proof. intros H K. apply ends_S. cbn. eapply ends_after; [exact H|]. cbn. apply ends_lift with (f := fun v => (v, bs)). exact K. Qed.
Lemma call_remote_fails bound h m f args h1 t : list_runs bound h args (h1, inr t) ->
  runs bound h (ECall (ERemote (EAtom m) (EAtom f)) args) (h1, inr t).
Proof. intros H. apply ends_S. cbn. apply ends_raise. exact H. Qed.
Lemma call_atom bound h f args h1 vs bs r : list_runs bound h args (h1, inl (vs, bs)) ->
  call_runs h1 (VRef f (N.of_nat (length args))) vs r ->
  runs bound h (ECall (EAtom f) args) (lift (fun v => (v, bs)) r).
Proof. intros H K. apply ends_S. cbn. eapply ends_after; [exact H|]. cbn. apply ends_lift with (f := fun v => (v, bs)). exact K. Qed.
Lemma call_atom_fails bound h f args h1 t : list_runs bound h args (h1, inr t) ->
  runs bound h (ECall (EAtom f) args) (h1, inr t).
Proof. intros H. apply ends_S. cbn. apply ends_raise. exact H. Qed.
Definition direct_call (e : erl) : bool := match e with EAtom _ | ERemote _ _ => false | _ => true end.
Lemma call_step n bound h f args : direct_call f = true ->
  eval (S n) bound h (ECall f args) = after (eval_list n bound h (f :: args)) (fun h r =>
            match fst r with
            | f :: vs => after (apply_ n h f vs) (fun h v => done h (v, snd r))
            | [] => None
            end).
Proof. destruct f; try discriminate; reflexivity. Qed.
Lemma call_value bound h f args h1 v vs bs r : direct_call f = true -> list_runs bound h (f :: args) (h1, inl (v :: vs, bs)) ->
  call_runs h1 v vs r -> runs bound h (ECall f args) (lift (fun v => (v, bs)) r).
Proof.
  intros S H K. apply ends_S. eapply ends_ext; [intro; symmetry; apply call_step, S|].
  eapply ends_after; [exact H|]. cbn. apply ends_lift with (f := fun v => (v, bs)). exact K.
Qed.
Lemma call_value_fails bound h f args h1 t : direct_call f = true -> list_runs bound h (f :: args) (h1, inr t) ->
  runs bound h (ECall f args) (h1, inr t).
Proof.
  intros S H. apply ends_S. eapply ends_ext; [intro; symmetry; apply call_step, S|]. apply ends_raise. exact H.
Qed.

Lemma runs_unary bound h s e h1 v b w : runs bound h e (h1, inl (v, b)) -> negate s v = Some w ->
  runs bound h (EUnary s e) (h1, inl (w, b)).
Proof. intros H N. apply ends_S. cbn. eapply ends_after; [exact H|]. cbn. rewrite N. apply ends_done. Qed.
Lemma runs_unary_fails bound h s e h1 t : runs bound h e (h1, inr t) -> runs bound h (EUnary s e) (h1, inr t).
Proof. intros H. apply ends_S. cbn. apply ends_raise. exact H. Qed.

Definition strict (s : sym) : bool := match s with KAndalso | KOrelse => false | _ => true end.
Lemma op_step n bound h s a b : strict s = true ->
  eval (S n) bound h (EOp s a b) = after (eval_list n bound h [a; b]) (fun h r =>
            match fst r with
            | [v; w] => after (settle h (operate s v w)) (fun h v => done h (v, snd r))
            | _ => None
            end).
Proof. destruct s; try discriminate; reflexivity. Qed.
Lemma runs_op bound h s a b h1 v w bs u : strict s = true -> list_runs bound h [a; b] (h1, inl ([v; w], bs)) ->
  operate s v w = Some (inl u) -> runs bound h (EOp s a b) (h1, inl (u, bs)).
Proof.
  intros S H O. apply ends_S. eapply ends_ext; [intro; symmetry; apply op_step, S|]. eapply ends_after; [exact H|]. cbn. rewrite O. apply ends_done.
Qed.
Lemma runs_op_fails bound h s a b h1 t : strict s = true -> list_runs bound h [a; b] (h1, inr t) ->
  runs bound h (EOp s a b) (h1, inr t).
Proof. intros S H. apply ends_S. eapply ends_ext; [intro; symmetry; apply op_step, S|]. apply ends_raise. exact H. Qed.
Lemma runs_andalso bound h a b h1 v bs r : runs bound h a (h1, inl (boolean v, bs)) ->
  (if v then exists q, runs (bs ++ bound) h1 b q /\ r = lift (fun q => (fst q, snd q ++ bs)) q else r = (h1, inl (boolean false, bs))) ->
  runs bound h (EOp KAndalso a b) r.
Proof.
  intros H K. apply ends_S. cbn. eapply ends_after; [exact H|]. destruct v; cbn.
  - destruct K as (q & K & ->). apply ends_lift with (f := fun q => (fst q, snd q ++ bs)). exact K.
  - subst r. apply ends_done.
Qed.
Lemma runs_orelse bound h a b h1 v bs r : runs bound h a (h1, inl (boolean v, bs)) ->
  (if v then r = (h1, inl (boolean true, bs)) else exists q, runs (bs ++ bound) h1 b q /\ r = lift (fun q => (fst q, snd q ++ bs)) q) ->
  runs bound h (EOp KOrelse a b) r.
Proof.
  intros H K. apply ends_S. cbn. eapply ends_after; [exact H|]. destruct v; cbn.
  - subst r. apply ends_done.
  - destruct K as (q & K & ->). apply ends_lift with (f := fun q => (fst q, snd q ++ bs)). exact K.
Qed.
Lemma runs_andalso_fails bound h a b h1 t : runs bound h a (h1, inr t) -> runs bound h (EOp KAndalso a b) (h1, inr t).
Proof. intros H. apply ends_S. cbn. apply ends_raise. exact H. Qed.
Lemma runs_orelse_fails bound h a b h1 t : runs bound h a (h1, inr t) -> runs bound h (EOp KOrelse a b) (h1, inr t).
Proof. intros H. apply ends_S. cbn. apply ends_raise. exact H. Qed.

Lemma runs_match bound h p e h1 v b l : runs bound h e (h1, inl (v, b)) -> match_ p v (b ++ bound) = Matches l ->
  runs bound h (EMatch p e) (h1, inl (v, l ++ b)).
Proof. intros H M. apply ends_S. cbn. eapply ends_after; [exact H|]. cbn. rewrite M. apply ends_done. Qed.
Lemma runs_match_fails bound h p e h1 t : runs bound h e (h1, inr t) -> runs bound h (EMatch p e) (h1, inr t).
Proof. intros H. apply ends_S. cbn. apply ends_raise. exact H. Qed.

Lemma runs_case bound h e clauses h1 v b r : runs bound h e (h1, inl (v, b)) -> clauses_run (b ++ bound) h1 v clauses r ->
  runs bound h (ECase e clauses) (lift (fun q => (fst q, snd q ++ b)) r).
Proof. intros H K. apply ends_S. cbn. eapply ends_after; [exact H|]. cbn. apply ends_lift with (f := fun q => (fst q, snd q ++ b)). exact K. Qed.
Lemma runs_case_fails bound h e clauses h1 t : runs bound h e (h1, inr t) -> runs bound h (ECase e clauses) (h1, inr t).
Proof. intros H. apply ends_S. cbn. apply ends_raise. exact H. Qed.

(** ** Bodies *)

Inductive body_runs : env -> history -> list erl -> history * ((term * env) + term) -> Prop :=
| body_one bound h e r : runs bound h e r -> body_runs bound h [e] r
| body_cons bound h e l h1 v b r : runs bound h e (h1, inl (v, b)) -> l <> [] -> body_runs (b ++ bound) h1 l r ->
    body_runs bound h (e :: l) (lift (fun q => (fst q, snd q ++ b)) r)
| body_head bound h e l h1 t : runs bound h e (h1, inr t) -> l <> [] -> body_runs bound h (e :: l) (h1, inr t).
Lemma body_ends bound h l r : body_runs bound h l r -> ends (fun n => eval_body n bound h l) r.
Proof.
  induction 1 as [bound h e r H|bound h e l h1 v b r H N _ IH|bound h e l h1 t H N].
  - apply ends_S. exact H.
  - destruct l as [|e' l]; [contradiction|]. apply ends_S. cbn. eapply ends_after; [exact H|]. cbn [fst snd].
    apply ends_lift with (f := fun q => (fst q, snd q ++ b)). exact IH.
  - destruct l as [|e' l]; [contradiction|]. apply ends_S. cbn. apply ends_raise. exact H.
Qed.
Lemma body_not_nil bound h l r : body_runs bound h l r -> l <> [].
Proof. destruct 1; discriminate. Qed.
Lemma runs_block bound h l r : body_runs bound h l r -> runs bound h (EBlock l) r.
Proof. intro H. apply ends_S. apply body_ends in H. exact H. Qed.
Lemma body_inv_one bound h e r : body_runs bound h [e] r -> runs bound h e r.
Proof. intro H. inversion H; subst; auto; contradiction. Qed.
Lemma lift_lift {A B C} (f : A -> B) (g : B -> C) r : lift g (lift f r) = lift (fun a => g (f a)) r.
Proof. destruct r as [h [a|t]]; reflexivity. Qed.
Lemma lift_ext {A B} (f g : A -> B) r : (forall a, f a = g a) -> lift f r = lift g r.
Proof. intro E. destruct r as [h [a|t]]; unfold lift; cbn; [rewrite E|]; reflexivity. Qed.
Lemma body_app bound h l1 l2 h1 v b r : body_runs bound h l1 (h1, inl (v, b)) -> body_runs (b ++ bound) h1 l2 r ->
  body_runs bound h (l1 ++ l2) (lift (fun q => (fst q, snd q ++ b)) r).
Proof.
  intros H K. assert (N2 := body_not_nil _ _ _ _ K). remember (h1, inl (v, b)) as q eqn:Q. revert h1 v b Q K.
  induction H as [bound h e q H|bound h e l h0 v0 b0 q H N _ IH|bound h e l h0 t H N]; intros h1 v b Q K.
  - subst q. cbn [app]. eapply body_cons; [exact H|exact N2|exact K].
  - destruct q as [hq [[vq bq]|tq]]; cbn in Q; [|discriminate]. injection Q as <- <- <-. rewrite <- app_assoc in K.
    specialize (IH _ _ _ eq_refl K). cbn [app].
    replace (lift (fun q => (fst q, snd q ++ bq ++ b0)) r) with (lift (fun q => (fst q, snd q ++ b0)) (lift (fun q => (fst q, snd q ++ bq)) r)).
    + eapply body_cons; [exact H| |exact IH]. destruct l; [contradiction|discriminate].
    + rewrite lift_lift. apply lift_ext. intros [w c]. cbn. rewrite app_assoc. reflexivity.
  - discriminate.
Qed.
Lemma body_app_fails bound h l1 l2 h1 t : body_runs bound h l1 (h1, inr t) -> l2 <> [] -> body_runs bound h (l1 ++ l2) (h1, inr t).
Proof.
  intros H N2. remember (h1, inr t) as q eqn:Q. revert h1 t Q.
  induction H as [bound h e q H|bound h e l h0 v0 b0 q H N _ IH|bound h e l h0 u H N]; intros h1 t Q.
  - subst q. cbn [app]. apply body_head; assumption.
  - destruct q as [hq [[vq bq]|tq]]; cbn in Q; [discriminate|]. injection Q as <- <-. cbn [app].
    change (hq, inr tq) with (lift (fun q : term * env => (fst q, snd q ++ b0)) (hq, inr tq)).
    eapply body_cons; [exact H| |exact (IH _ _ eq_refl)]. destruct l; [contradiction|discriminate].
  - injection Q as -> ->. cbn [app]. apply body_head; [assumption|]. destruct l; [contradiction|discriminate].
Qed.

(** ** Clauses *)

Lemma clause_differs bound h v p gs body l r : match_ p v bound = Differs -> clauses_run bound h v l r ->
  clauses_run bound h v ((p, (gs, body)) :: l) r.
Proof. intros M H. apply ends_S. cbn. rewrite M. exact H. Qed.
Lemma clause_chosen bound h v p body l m r : match_ p v bound = Matches m -> body_runs (m ++ bound) h body r ->
  clauses_run bound h v ((p, ([], body)) :: l) (lift (fun q => (fst q, snd q ++ m)) r).
Proof.
  intros M H. apply ends_S. cbn. rewrite M. apply body_ends in H. apply ends_lift with (f := fun q => (fst q, snd q ++ m)). exact H.
Qed.
Lemma clause_guard_true bound h v p g body l m r hg bg : match_ p v bound = Matches m ->
  runs (m ++ bound) h g (hg, inl (boolean true, bg)) -> body_runs (m ++ bound) h body r ->
  clauses_run bound h v ((p, ([g], body)) :: l) (lift (fun q => (fst q, snd q ++ m)) r).
Proof.
  intros M (n0 & G) H. apply ends_S. cbn. rewrite M. apply body_ends in H.
  apply ends_lift with (f := fun q => (fst q, snd q ++ m)) in H. destruct H as (n1 & H). exists (n0 + n1).
  intros n N. rewrite G by lia. apply H. lia.
Qed.
Lemma clause_guard_false bound h v p g body l m r hg bg : match_ p v bound = Matches m ->
  runs (m ++ bound) h g (hg, inl (boolean false, bg)) -> clauses_run bound h v l r ->
  clauses_run bound h v ((p, ([g], body)) :: l) r.
Proof.
  intros M (n0 & G) (n1 & H). apply ends_S. cbn. rewrite M. exists (n0 + n1). intros n N. rewrite G by lia. apply H. lia.
Qed.

(** ** Calls *)

Lemma call_fun h ps body bound args l r : parameters ps args = Some l -> body_runs (l ++ bound) h body r ->
  call_runs h (VFun ps body bound) args (lift fst r).
Proof. intros P H. apply ends_S. cbn. rewrite P. apply body_ends in H. apply ends_lift with (f := fst). exact H. Qed.
Lemma call_ref h f args ps body l r : definition forms f (length args) = Some (ps, body) -> parameters ps args = Some l ->
  body_runs l h body r -> call_runs h (VRef f (N.of_nat (length args))) args (lift fst r).
Proof.
  intros D P H. apply ends_S. cbn. rewrite N.eqb_refl, D, P. apply body_ends in H. apply ends_lift with (f := fst). exact H.
Qed.
Lemma call_element h i l v : nth_error l (N.to_nat i) = Some v ->
  call_runs h (VRemote (str "erlang") (str "element") 2) [VInt (Z.of_N (i + 1)); VTuple l] (h, inl v).
Proof.
  intro H. apply ends_S. apply ends_ext with (run := fun _ => settle h (element [VInt (Z.of_N (i + 1)); VTuple l])); [reflexivity|].
  unfold element. replace (1 <=? Z.of_N (i + 1))%Z with true by lia.
  replace (Z.to_nat (Z.of_N (i + 1) - 1)) with (N.to_nat i) by lia. rewrite H. apply ends_done.
Qed.
Lemma call_error h t : call_runs h (VRemote (str "erlang") (str "error") 1) [t] (h, inr t).
Proof. apply ends_S. apply ends_done. Qed.
Lemma call_world h m f args v : ~ (m = str "erlang" /\ (f = str "element" \/ f = str "error")) ->
  world h m f args = Some v ->
  call_runs h (VRemote m f (N.of_nat (length args))) args ((m, f, args) :: h, inl v).
Proof.
  intros N W. apply ends_S. eapply ends_ext; [|apply ends_done]. intro n. symmetry. cbn [ErlangRun.apply]. rewrite N.eqb_refl.
  destruct (text_eqb m (str "erlang") && text_eqb f (str "element")) eqn:E.
  { exfalso. apply andb_true_iff in E. rewrite ! text_eqb_eq in E. tauto. }
  destruct (text_eqb m (str "erlang") && text_eqb f (str "error")) eqn:E'.
  { exfalso. apply andb_true_iff in E'. rewrite ! text_eqb_eq in E'. tauto. }
  unfold ask. rewrite W. reflexivity.
Qed.
End Rules.
