(** Code is generated for every program the type checker lets through, and what this does to the
    names of variables. *)
From Coq Require Import String NArith ZArith List Bool Lia Permutation ZifyBool ZifyN ZifyNat.
From Verif Require Import Text TextProofs Strings StringsSpec Erl ErlangSource ErlangSourceSpec ErlangTypes
  ErlangCode ErlangRun ErlangCodeSpec ErlangCodeTree ErlangCodeCalls ErlangCodeNames.
Import ListNotations.
Local Open Scope nat_scope.
Local Open Scope list_scope.

Lemma Forall2_impl' {A B} (P Q : A -> B -> Prop) l m : (forall a b, P a b -> Q a b) -> Forall2 P l m -> Forall2 Q l m.
Proof. intros H. induction 1; constructor; auto. Qed.

(** ** Scopes *)

Lemma fresh_perm used b b' : Permutation b b' -> fresh used b -> fresh used b'.
Proof.
  intros P (A & B & C). repeat split.
  - eapply Permutation_NoDup; [|exact A]. apply Permutation_map, P.
  - eapply Permutation_NoDup; [|exact B]. apply Permutation_map, P.
  - rewrite Forall_forall in *. intros x X. apply C. eapply Permutation_in; [|exact X]. symmetry. exact P.
Qed.
Lemma fresh_app used a b : fresh used (a ++ b) -> fresh used a /\ fresh (map snd a ++ used) b.
Proof.
  intros (A & B & C). rewrite ! map_app in *. rewrite Forall_app in C. destruct C as [C D]. split; repeat split.
  - apply (NoDup_app_l _ _ A).
  - apply (NoDup_app_l _ _ B).
  - exact C.
  - apply (NoDup_app_r _ _ A).
  - apply (NoDup_app_r _ _ B).
  - rewrite Forall_forall in *. intros x X. destruct (D x X) as [L O]. split; [exact L|]. rewrite in_app_iff. intros [I|I]; [|contradiction].
    apply (NoDup_app_disjoint _ _ (snd x) B I). apply in_map, X.
Qed.
Lemma ins_app a b x : NoDup (map fst (a ++ b)) -> (ins (a ++ b) x = ins a x + ins b x)%N.
Proof.
  rewrite map_app. intro N. destruct (in_texts x (map fst a)) as [I|O].
  - rewrite (ins_in a x I), (ins_in (a ++ b) x), (ins_out b x); [reflexivity| |].
    + intro J. apply (NoDup_app_disjoint _ _ x N I J).
    + rewrite map_app, in_app_iff. auto.
  - rewrite (ins_out a x O). destruct (in_texts x (map fst b)) as [I|O'].
    + rewrite (ins_in b x I), (ins_in (a ++ b) x); [reflexivity|]. rewrite map_app, in_app_iff. auto.
    + rewrite (ins_out b x O'), (ins_out (a ++ b) x); [reflexivity|]. rewrite map_app, in_app_iff. tauto.
Qed.
Lemma ins_same a b x : (In x (map fst a) <-> In x (map fst b)) -> ins a x = ins b x.
Proof.
  intro H. destruct (in_texts x (map fst a)) as [I|O].
  - rewrite (ins_in a x I), (ins_in b x); [reflexivity|]. apply H, I.
  - rewrite (ins_out a x O), (ins_out b x); [reflexivity|]. rewrite <- H. exact O.
Qed.
Lemma perm_names (a b : scope) x : Permutation a b -> (In x (map fst a) <-> In x (map fst b)).
Proof. intro P. assert (Q := Permutation_map fst P). split; apply Permutation_in; [exact Q|symmetry; exact Q]. Qed.

(** After a pattern and its prefixes. *)
Definition after_pattern (b : scope) (al : aliases) (s : state) : state :=
  alloc (bare (sorted_by_name al)) (alloc b s).
Section After.
Context (new b : scope) (al : aliases) (P : Permutation new (b ++ bare al)) (N1 : NoDup (map fst new)) (N2 : NoDup (map snd new)).
Lemma after_sorted : Permutation new (b ++ bare (sorted_by_name al)).
Proof.
  rewrite P. apply Permutation_app_head. unfold bare. apply Permutation_map. symmetry. apply sorted_permutation.
  rewrite <- bare_names. apply NoDup_app_r with (a := map fst b). rewrite <- map_app. eapply Permutation_NoDup; [apply Permutation_map, P|exact N1].
Qed.
Lemma after_names : NoDup (map fst (b ++ bare (sorted_by_name al))).
Proof. eapply Permutation_NoDup; [apply Permutation_map, after_sorted|exact N1]. Qed.
Lemma after_places : NoDup (map snd (b ++ bare (sorted_by_name al))).
Proof. eapply Permutation_NoDup; [apply Permutation_map, after_sorted|exact N2]. Qed.
Lemma after_alloc s : after_pattern b al s = alloc (b ++ bare (sorted_by_name al)) s.
Proof. unfold after_pattern. rewrite alloc_app. reflexivity. Qed.
Lemma count_after s x : (count (after_pattern b al s) x = count s x + ins new x)%N.
Proof.
  rewrite after_alloc, count_alloc by apply after_names. f_equal. apply ins_same. symmetry. apply perm_names, after_sorted.
Qed.
Lemma place_after s x l : In (x, l) new -> place (after_pattern b al s) l = Some (rho s x).
Proof.
  intro H. rewrite after_alloc. apply place_alloc; [apply after_names|apply after_places|]. eapply Permutation_in; [apply after_sorted|exact H].
Qed.
Lemma place_after_out s l : ~ In l (map snd new) -> place (after_pattern b al s) l = place s l.
Proof.
  intro H. rewrite after_alloc. apply place_alloc_out. intro I. apply H. eapply Permutation_in; [|exact I].
  symmetry. apply Permutation_map, after_sorted.
Qed.
Lemma generated_after s : generated_variables (after_pattern b al s) = generated_variables s.
Proof. rewrite after_alloc. apply generated_alloc. Qed.
Lemma moves_after used s : fresh used new -> moves used (ins new) s (after_pattern b al s).
Proof.
  intro F. repeat split.
  - apply count_after.
  - rewrite generated_after. lia.
  - intros l L. apply place_after_out. intro I. apply in_map_iff in I. destruct I as (q & <- & I).
    destruct F as (_ & _ & F). rewrite Forall_forall in F. destruct (F q I) as [_ O]. contradiction.
Qed.
Lemma resolves_after used vars s : fresh used new -> incl (map snd vars) used -> resolves vars s ->
  resolves (new ++ vars) (after_pattern b al s).
Proof.
  intros F I R x l H. apply in_app_iff in H. destruct H as [H|H].
  - rewrite (place_after s x l H). discriminate.
  - exact (resolves_moves used _ vars s _ I (moves_after used s F) R x l H).
Qed.
End After.
Lemma moves_ext used d d' s s' : (forall x, d x = d' x) -> moves used d s s' -> moves used d' s s'.
Proof. intros E (A & B & C). repeat split; auto. intro x. rewrite A, E. reflexivity. Qed.

(** ** Generating *)

Definition goes {A} (vars : scope) (used : list span) (d : text -> N) (m : M A) : Prop :=
  forall s, resolves vars s -> exists a s', m s = Some (a, s') /\ moves used d s s'.
Lemma goes_ret {A} vars used (a : A) : goes vars used none (ret a).
Proof. intros s _. exists a, s. split; [reflexivity|apply moves_none]. Qed.
Lemma goes_bind {A B} vars used d d' (m : M A) (f : A -> M B) : incl (map snd vars) used ->
  goes vars used d m -> (forall a, goes vars used d' (f a)) -> goes vars used (plus d d') (bind m f).
Proof.
  intros I H F s R. destruct (H s R) as (a & s1 & E & V). destruct (F a s1 (resolves_moves _ _ _ _ _ I V R)) as (b & s2 & E' & V').
  exists b, s2. split; [erewrite bind_eq by exact E; exact E'|]. eapply moves_trans; eassumption.
Qed.
Lemma goes_map {A B} vars used (f : A -> M B) l : incl (map snd vars) used ->
  Forall (fun a => exists d, goes vars used d (f a)) l -> exists d, goes vars used d (map_m f l).
Proof.
  intro I. induction 1 as [|a l (d & D) _ (d' & D')]; [exists none; apply goes_ret|].
  eexists. cbn [map_m]. eapply goes_bind; [exact I|exact D|]. intro. eapply goes_bind; [exact I|exact D'|]. intro. apply goes_ret.
Qed.
Lemma goes_less {A} vars vars' used used' d (m : M A) : incl vars vars' -> incl used' used ->
  goes vars used d m -> goes vars' used' d m.
Proof.
  intros I J G s R. destruct (G s) as (a & s' & E & V); [intros x l H; apply (R x l), I, H|]. exists a, s'. split; [exact E|].
  eapply moves_less; eassumption.
Qed.
Lemma goes_generated vars used : goes vars used none new_generated_variable.
Proof. intros s _. eexists _, _. split; [apply new_generated|apply moves_generated]. Qed.
Lemma goes_new vars used x l : fresh used [(x, l)] -> goes vars used (ins [(x, l)]) (new_erlang_variable x l).
Proof. intros F s _. eexists _, _. split; [apply new_variable|]. exact (moves_alloc used [(x, l)] s F). Qed.
Lemma goes_place vars used x l : lookup x vars = Some l -> goes vars used none (local_var_name l).
Proof.
  intros H s R. apply lookup_in in H. specialize (R x l H). unfold local_var_name. unfold place in R.
  destruct (get_span l (variable_names s)) as [y|]; [|contradiction]. exists y, s. split; [reflexivity|apply moves_none].
Qed.

Lemma generated_is n : forall s, generated n s =
  Some (map (fun i => gen (generated_variables s + N.of_nat i)) (seq 0 n),
        State (taken_names s) (variable_names s) (generated_variables s + N.of_nat n)).
Proof.
  induction n as [|n IH]; intro s.
  - cbn. destruct s. cbn. rewrite N.add_0_r. reflexivity.
  - cbn [generated]. erewrite bind_eq by apply new_generated. erewrite bind_eq by apply IH. unfold ret.
    cbn [generated_variables taken_names variable_names seq map]. rewrite N.add_0_r. f_equal. f_equal.
    + f_equal. rewrite <- seq_shift, map_map. apply map_ext. intro i. f_equal. lia.
    + f_equal. lia.
Qed.
Lemma goes_generated_many vars used n : goes vars used none (generated n).
Proof.
  intros s _. eexists _, _. split; [apply generated_is|]. repeat split; cbn; intros; unfold none, count; cbn; lia || reflexivity.
Qed.

Lemma guard_goes scope al g : legal_guard scope al g -> forall a s,
  (forall x, In x al -> get x a <> None \/ ~ In x (guard_mentions g)) ->
  (forall x l, lookup x scope = Some l -> ~ In x al -> place s l <> None) ->
  exists n, t_guard g a s = Some (n, s).
Proof.
  induction g; intros L a s A R; cbn [t_guard legal_guard guard_mentions] in *;
    try (eexists; reflexivity).
  - destruct (get name a) as [[l w]|] eqn:G; [eexists; reflexivity|].
    assert (O : ~ In name al). { intro I. destruct (A name I) as [C|C]; [congruence|]. apply C. left. reflexivity. }
    specialize (R name _ L O). unfold place in R. unfold bind, local_var_name. destruct (get_span _ _) as [y|]; [|contradiction]. eexists; reflexivity.
  - apply IHg; assumption.
  - destruct L as [L _]. destruct (IHg L a s A R) as [n E]. eexists. erewrite bind_eq by exact E. reflexivity.
  - destruct L as (L1 & L2 & _). destruct (IHg1 L1 a s) as [n1 E1]; [|exact R|].
    { intros x X. destruct (A x X) as [C|C]; [left; exact C|right]. intro. apply C, in_app_iff. auto. }
    destruct (IHg2 L2 a s) as [n2 E2]; [|exact R|].
    { intros x X. destruct (A x X) as [C|C]; [left; exact C|right]. intro. apply C, in_app_iff. auto. }
    eexists. erewrite bind_eq by exact E1. erewrite bind_eq by exact E2. reflexivity.
  - destruct L as (L & O). destruct (IHg L [] s) as [n E]; [|exact R|].
    { intros x X. right. apply O, X. }
    eexists. erewrite bind_eq by exact E. reflexivity.
  - destruct L as (L & O). destruct (IHg L [] s) as [n E]; [|exact R|].
    { intros x X. right. apply O, X. }
    eexists. erewrite bind_eq by exact E. reflexivity.
Qed.

Lemma always_no_prefixes p : always_matches p = true -> prefixes p = [].
Proof.
  pattern p. apply pattern_rect'; clear p; intros; cbn [always_matches prefixes] in *; try reflexivity; try discriminate; auto.
  induction H as [|q ps Q _ IH]; [reflexivity|]. cbn [forallb] in H0. apply andb_true_iff in H0. destruct H0 as [A B].
  rewrite backwards_cons, (IH B), (Q A). reflexivity.
Qed.
Lemma aliased_none p : aliased p = [] -> prefixes p = [].
Proof.
  intro H. destruct (prefixes p) as [|e l] eqn:E; [reflexivity|]. exfalso.
  assert (I := proj2 (aliased_prefixes p (fst e))). rewrite E, H in I. apply I. left. reflexivity.
Qed.

Section State.
Context (c : context) (module : text).
Notation legal := (legal module).
Notation legal_body := (legal_body legal).
Notation legal_steps := (legal_steps legal).
Notation legal_clause := (legal_clause legal).
Notation legal_call := (legal_call legal).

Definition G (e : expr) : Prop := forall used vars, incl (map snd vars) used -> legal used vars e ->
  exists d, goes vars used d (t_expression c e).
Lemma maybe_goes e used vars : G e -> incl (map snd vars) used -> legal used vars e ->
  exists d, goes vars used d (t_maybe (t_expression c) e).
Proof.
  intros H I L. destruct (H used vars I L) as [d D]. eexists. eapply goes_bind; [exact I|exact D|]. intro. apply goes_ret.
Qed.
Lemma maybes_go l used vars : Forall G l -> incl (map snd vars) used -> each (legal used vars) l ->
  exists d, goes vars used d (map_m (t_maybe (t_expression c)) l).
Proof.
  intros H I L. apply goes_map; [exact I|]. induction H as [|e l E _ IH]; [constructor|]. destruct L as [L1 L2].
  constructor; [|apply IH, L2]. apply maybe_goes; assumption.
Qed.
Lemma message_goes k m used vars : maybe G m -> incl (map snd vars) used -> match m with Some m => legal used vars m | None => True end ->
  exists d, goes vars used d (t_message (t_expression c) k m).
Proof. intros H I L. destruct m; [apply maybe_goes; assumption|]. exists none. apply goes_ret. Qed.
Lemma call_goes f args used vars : G f -> Forall G args -> incl (map snd vars) used -> legal_call used vars f args ->
  exists d, goes vars used d (t_call c (t_expression c) f args).
Proof.
  intros F A I (LF & _ & LA). destruct (maybes_go args used vars A I LA) as [d D]. destruct (maybe_goes f used vars F I LF) as [d' D'].
  unfold t_call. destruct (how_to_call f).
  - destruct args; [exists none; apply goes_ret|]. eexists. eapply goes_bind; [exact I|exact D|]. intro. apply goes_ret.
  - eexists. eapply goes_bind; [exact I|exact D|]. intro. apply goes_ret.
  - eexists. eapply goes_bind; [exact I|exact D'|]. intro. eapply goes_bind; [exact I|exact D|]. intro. apply goes_ret.
Qed.
Lemma incl_app_both {A} (a b b2 : list A) : incl b b2 -> incl (a ++ b) (a ++ b2).
Proof. intros H x X. apply in_app_iff in X. apply in_app_iff. destruct X; auto. Qed.
Lemma incl_new (new vars : scope) used : incl (map snd vars) used -> incl (map snd (new ++ vars)) (map snd new ++ used).
Proof. intro H. rewrite map_app. apply incl_app_both, H. Qed.

(** [let], when the pattern has no prefixes. *)
Lemma let_goes p e used vars : G e -> incl (map snd vars) used -> legal (map snd (bound_by p) ++ used) vars e ->
  prefixes p = [] -> fresh used (bound_by p) ->
  exists d, forall s, resolves vars s -> exists n s1,
    t_maybe (t_expression c) e (alloc (direct p) s) = Some (n, s1) /\
    t_let (t_expression c) e p s = Some (NMatch (p_node (rho s) p) n, s1) /\
    resolves vars (alloc (direct p) s) /\
    moves used (ins (bound_by p)) s (alloc (direct p) s) /\
    resolves (bound_by p ++ vars) (alloc (direct p) s) /\
    moves (map snd (bound_by p) ++ used) d (alloc (direct p) s) s1.
Proof.
  intros H I L E F. assert (P := bound_split p). rewrite E in P. cbn [bare map] in P. rewrite app_nil_r in P.
  assert (F' := fresh_perm _ _ _ P F).
  assert (I' : incl (map snd vars) (map snd (bound_by p) ++ used)) by (intros x X; apply in_app_iff; auto).
  destruct (maybe_goes e _ vars H I' L) as [d D]. exists d. intros s R.
  assert (V := moves_alloc used _ s F'). assert (R1 := resolves_moves _ _ _ _ _ I V R).
  destruct (D _ R1) as (n & s1 & E1 & V1). exists n, s1. repeat split; try apply V; try apply V1; auto.
  - unfold t_let. erewrite bind_eq by (apply pattern_ok; apply F'). erewrite bind_eq by exact E1. reflexivity.
  - intro x. rewrite count_alloc by apply F'. f_equal. apply ins_same. symmetry. apply perm_names, P.
  - intros x l X. apply (resolves_alloc used (direct p) vars s F' I R x l). apply in_app_iff in X. apply in_app_iff.
    destruct X; [left|right; assumption]. eapply Permutation_in; [exact P|assumption].
Qed.

Lemma body_goes l : Forall (in_stmt G) l -> forall used vars, incl (map snd vars) used -> legal_body used vars l ->
  exists d, goes vars used d (t_body c (t_expression c) l).
Proof.
  induction 1 as [|st l H _ IH]; intros used vars I L; [exists none; apply goes_ret|].
  assert (PL : forall p e, G e -> legal (map snd (bound_by p) ++ used) vars e -> prefixes p = [] -> fresh used (bound_by p) ->
    legal_body (map snd (bound_by p) ++ used) (bound_by p ++ vars) l ->
    exists d, goes vars used d (bind (t_let (t_expression c) e p) (fun first => bind (t_body c (t_expression c) l) (fun rest => ret (first :: rest))))).
  { intros p e He L1 E F LB. destruct (let_goes p e used vars He I L1 E F) as [d D].
    destruct (IH _ _ (incl_new (bound_by p) vars used I) LB) as [d' D']. exists (plus (ins (bound_by p)) (plus d d')). intros s R.
    destruct (D s R) as (n & s1 & _ & E1 & _ & V & R1 & V1). destruct (D' s1) as (ns & s2 & E2 & V2).
    { eapply resolves_moves; [|exact V1|exact R1]. apply incl_new, I. }
    exists (NMatch (p_node (rho s) p) n :: ns), s2. split.
    { erewrite bind_eq by exact E1. erewrite bind_eq by exact E2. reflexivity. }
    eapply moves_trans; [exact V|]. assert (J : incl used (map snd (bound_by p) ++ used)) by (apply incl_appr, incl_refl).
    eapply moves_trans; eapply moves_less; eassumption. }
  destruct st as [e|p e|p e ee m loc]; cbn [in_stmt t_body ErlangCodeSpec.legal_body] in *.
  - destruct L as [L1 L2]. destruct (H used vars I L1) as [d D]. destruct (IH used vars I L2) as [d' D'].
    eexists. eapply goes_bind; [exact I|exact D|]. intro. eapply goes_bind; [exact I|exact D'|]. intro. apply goes_ret.
  - destruct L as (L1 & _ & A & F & LB). apply PL; auto. apply aliased_none, A.
  - destruct H as [He Hm]. destruct L as (L1 & _ & F & LM & LB). destruct (always_matches p) eqn:AM.
    { apply PL; auto. apply always_no_prefixes, AM. }
    assert (J : incl used (map snd (bound_by p) ++ used)) by (apply incl_appr, incl_refl).
    assert (I' : incl (map snd vars) (map snd (bound_by p) ++ used)) by (intros x X; apply J, I, X).
    destruct (maybe_goes e _ vars He I' L1) as [d D]. destruct (IH _ _ (incl_new (bound_by p) vars used I) LB) as [db DB].
    destruct (message_goes LetAssert m used vars Hm I LM) as [dm DM].
    assert (P := bound_split p). assert (F' := fresh_perm _ _ _ P F). destruct (fresh_app _ _ _ F') as [FD _].
    set (K := bind (match l with
          | _ :: _ =>
              do pat <- t_pattern p [];
              do assignments <- t_assignments (snd pat);
              do body <- t_body c (t_expression c) l;
              ret (fst pat, (None : option node, assignments ++ body))
          | [] =>
              do x <- new_generated_variable;
              do pat <- t_pattern p [];
              ret (NMatch (fst pat) (NVar x), (None, [NVar x]))
          end)).
    assert (C : exists dc, goes vars used dc (match l with
          | _ :: _ =>
              do pat <- t_pattern p [];
              do assignments <- t_assignments (snd pat);
              do body <- t_body c (t_expression c) l;
              ret (fst pat, (None : option node, assignments ++ body))
          | [] =>
              do x <- new_generated_variable;
              do pat <- t_pattern p [];
              ret (NMatch (fst pat) (NVar x), (None, [NVar x]))
          end)).
    { destruct l as [|st l].
      - eexists. eapply goes_bind; [exact I|apply goes_generated|]. intro x.
        eapply goes_bind with (d := ins (direct p)) (d' := none); [exact I| |].
        + intros s R. eexists _, _. split; [apply pattern_ok; apply FD|]. apply moves_alloc, FD.
        + intro. apply goes_ret.
      - exists (plus (ins (bound_by p)) db). intros s R.
        assert (N2 : NoDup (map fst (prefixes p))).
        { rewrite <- bare_names. apply NoDup_app_r with (a := map fst (direct p)). rewrite <- map_app. apply F'. }
        destruct (DB (after_pattern (direct p) (prefixes p) s)) as (ns & s2 & E2 & V2).
        { eapply resolves_after; [exact P|apply F|apply F|exact F|exact I|exact R]. }
        eexists _, s2. split.
        { erewrite bind_eq by (apply pattern_ok; apply FD). cbn [snd fst]. rewrite app_nil_r.
          erewrite bind_eq by (apply assignments_ok; exact N2). fold (after_pattern (direct p) (prefixes p) s).
          erewrite bind_eq by exact E2. reflexivity. }
        eapply moves_trans; [apply moves_after; [exact P|apply F|exact F]|]. eapply moves_less; eassumption. }
    destruct C as [dc DC]. eexists. eapply goes_bind; [exact I| |].
    { apply goes_less with (vars := vars) (used := map snd (bound_by p) ++ used); [apply incl_refl|exact J|exact D]. }
    intro. eapply goes_bind; [exact I|exact DC|]. intro. eapply goes_bind; [exact I|apply goes_generated|]. intro.
    eapply goes_bind; [exact I|exact DM|]. intro. apply goes_ret.
Qed.

Lemma steps_go last : G last -> forall l, Forall (fun s => G (snd s)) l -> forall used vars, incl (map snd vars) used ->
  legal_steps last used vars l -> exists d, forall s, resolves vars s -> exists ns s1 ls s2,
    map_m (fun '(name, location, value) => t_bind (t_expression c) name location value) l s = Some (ns, s1) /\
    t_expression c last s1 = Some (ls, s2) /\ moves used d s s2.
Proof.
  intros HL l H. induction H as [|[[x at_] e] l E _ IH]; intros used vars I L.
  - destruct (HL used vars I L) as [d D]. exists d. intros s R. destruct (D s R) as (ls & s2 & E & V). exists [], s, ls, s2. auto.
  - cbn [ErlangCodeSpec.legal_steps] in L. destruct L as (L1 & F & L2). cbn [snd] in E.
    assert (I' : incl (map snd vars) (at_ :: used)) by (intros y Y; right; apply I, Y).
    destruct (maybe_goes e (at_ :: used) vars E I' L1) as [d D].
    destruct (IH (at_ :: used) ((x, at_) :: vars)) as [d' D']; [exact (incl_new [(x, at_)] vars used I)|exact L2|].
    exists (plus (ins [(x, at_)]) (plus d d')). intros s R. assert (V0 := moves_alloc used [(x, at_)] s F).
    destruct (D (alloc [(x, at_)] s)) as (n & s1 & E1 & V1); [exact (resolves_moves _ _ _ _ _ I V0 R)|].
    destruct (D' s1) as (ns & s2 & ls & s3 & E2 & E3 & V2).
    { eapply resolves_moves; [exact (incl_new [(x, at_)] vars used I)|exact V1|]. exact (resolves_alloc used [(x, at_)] vars s F I R). }
    exists (NMatch (NVar (rho s x)) n :: ns), s2, ls, s3. split; [|split; [exact E3|]].
    + cbn [map_m]. unfold t_bind at 1. erewrite bind_eq by (erewrite bind_eq by apply new_variable; erewrite bind_eq by exact E1; reflexivity).
      erewrite bind_eq by exact E2. reflexivity.
    + assert (J : incl used (at_ :: used)) by (apply incl_tl, incl_refl).
      eapply moves_trans; [exact V0|]. eapply moves_trans; eapply moves_less; eassumption.
Qed.

(** ** Clauses *)

Definition branch_body (e : expr) : M (list node) :=
  match e with Block l => t_body c (t_expression c) l | _ => t_expression c e end.
Definition after_patterns (ps : list pattern) (s : state) : state :=
  after_pattern (flat_map direct ps) (backwards prefixes ps) s.
Definition branch_node (s : state) (ps : list pattern) (g : option node) (body : list node) : node * (option node * list node) :=
  (match ps with [p] => p_node (rho s) p | _ => NTuple (map (p_node (rho s)) ps) end,
   (g, map (fun e => NMatch (NVar (rho (alloc (flat_map direct ps) s) (fst e))) (string_node (snd (snd e))))
         (sorted_by_name (backwards prefixes ps)) ++ body)).
Lemma branch_is ps g e s gn body s' : NoDup (map fst (flat_map bound_by ps)) ->
  match g with
  | Some g => exists n, t_guard g (backwards prefixes ps) (alloc (flat_map direct ps) s) = Some (n, alloc (flat_map direct ps) s) /\ gn = Some n
  | None => gn = None
  end ->
  branch_body e (after_patterns ps s) = Some (body, s') ->
  t_branch c (t_expression c) ps g e s = Some (branch_node s ps gn body, s').
Proof.
  intros N HG HB. assert (P := bound_split_all ps).
  assert (N' : NoDup (map fst (flat_map direct ps ++ bare (backwards prefixes ps)))) by (eapply Permutation_NoDup; [apply Permutation_map, P|exact N]).
  rewrite map_app in N'. assert (N1 := NoDup_app_l _ _ N'). assert (N2 := NoDup_app_r _ _ N'). rewrite bare_names in N2.
  unfold t_branch. erewrite bind_eq by (apply clause_patterns_ok; exact N1). cbn [fst snd].
  assert (GE : (match g with Some g => do n <- t_guard g (backwards prefixes ps); ret (Some n) | None => ret None end)
     (alloc (flat_map direct ps) s) = Some (gn, alloc (flat_map direct ps) s)).
  { destruct g as [g|]; [|subst; reflexivity]. destruct HG as (n & E & ->). erewrite bind_eq by exact E. reflexivity. }
  erewrite bind_eq by exact GE. erewrite bind_eq by (apply assignments_ok; exact N2).
  fold (after_pattern (flat_map direct ps) (backwards prefixes ps) s). fold (after_patterns ps s).
  erewrite bind_eq by exact HB. reflexivity.
Qed.

(** A branch that is generated, from a state at or after [s0]: variables have the same places. *)
Definition at_start (used : list span) (s0 s : state) : Prop :=
  (forall x, count s0 x <= count s x)%N /\ (generated_variables s0 <= generated_variables s)%N /\
  forall l, In l used -> place s l = place s0 l.
Lemma moves_start used d s s' : moves used d s s' -> at_start used s s'.
Proof using. intros (A & B & C). repeat split; auto. intro x. rewrite A. clear c module. lia. Qed.
Lemma start_refl used s : at_start used s s.
Proof using. clear c module. repeat split; intros; lia || reflexivity. Qed.
Lemma start_trans used s0 s1 s2 : at_start used s0 s1 -> at_start used s1 s2 -> at_start used s0 s2.
Proof using.
  clear c module. intros (A & B & C) (A' & B' & C'). repeat split; [| |].
  - intro x. specialize (A x). specialize (A' x). lia.
  - lia.
  - intros l L. rewrite C', C; auto.
Qed.
Lemma start_less used used' s0 s1 : incl used' used -> at_start used s0 s1 -> at_start used' s0 s1.
Proof. intros I (A & B & C). repeat split; auto. Qed.
Lemma start_resolves used vars s s' : incl (map snd vars) used -> at_start used s s' -> resolves vars s -> resolves vars s'.
Proof. intros I (_ & _ & C) R x l H. rewrite C; [apply (R x l H)|]. apply I, in_map_iff. exists (x, l). auto. Qed.

Definition branch_at (used : list span) (vars : scope) (n : nat) (s0 s_end : state) (b : list pattern * option guard * expr)
    (node : node * (option node * list node)) : Prop :=
  let '(ps, g, e) := b in
  let bound := flat_map bound_by ps in
  exists s gn body s' new,
    at_start used s0 s /\ length ps = n /\ fresh used new /\ fresh used bound /\
    (forall x, In x (map fst new) <-> In x (map fst bound)) /\
    (forall x l, In (x, l) new -> place (after_patterns ps s) l = Some (rho s x)) /\
    (forall x l, In (x, l) new -> ~ In x (flat_map aliased ps) -> place (alloc (flat_map direct ps) s) l = Some (rho s x)) /\
    match g with
    | Some g => legal_guard (new ++ vars) (flat_map aliased ps) g /\
       exists n, t_guard g (backwards prefixes ps) (alloc (flat_map direct ps) s) = Some (n, alloc (flat_map direct ps) s) /\ gn = Some n
    | None => gn = None
    end /\
    legal (map snd new ++ used) (new ++ vars) e /\ e <> Block [] /\ each legal_pattern ps /\
    branch_body e (after_patterns ps s) = Some (body, s') /\
    node = branch_node s ps gn body /\
    at_start used s' s_end.

Lemma body_of_branch e used vars : G e -> (forall l, e = Block l -> Forall (in_stmt G) l) -> incl (map snd vars) used ->
  legal used vars e -> exists d, goes vars used d (branch_body e).
Proof.
  intros H B I L. destruct e; try (apply H; assumption). cbn [branch_body]. apply body_goes; [apply B; reflexivity|exact I|apply L].
Qed.

Lemma branch_at_end used vars n s0 s1 s2 b node : at_start used s1 s2 -> branch_at used vars n s0 s1 b node -> branch_at used vars n s0 s2 b node.
Proof.
  destruct b as [[ps g] e]. intros S (s & gn & body & s' & new & A). exists s, gn, body, s', new. intuition auto.
  eapply start_trans; eassumption.
Qed.
Lemma branch_at_start used vars n s0 s1 s2 b node : at_start used s0 s1 -> branch_at used vars n s1 s2 b node -> branch_at used vars n s0 s2 b node.
Proof.
  destruct b as [[ps g] e]. intros S (s & gn & body & s' & new & A). exists s, gn, body, s', new. intuition auto.
  eapply start_trans; eassumption.
Qed.

Lemma clause_goes used vars n first others g e : G e -> (forall l, e = Block l -> Forall (in_stmt G) l) -> incl (map snd vars) used ->
  legal_clause used vars n (first, others, g, e) -> exists d, forall s, resolves vars s -> exists nodes s',
    t_clause c (t_expression c) (first, others, g, e) s = Some (nodes, s') /\ moves used d s s' /\
    Forall2 (branch_at used vars n s s') (map (fun ps => (ps, g, e)) (first :: others)) nodes.
Proof.
  intros H HB I (LP & F & LO & LG & LE & NB).
  set (new := flat_map bound_by first) in *.
  destruct (body_of_branch e _ _ H HB (incl_new new vars used I) LE) as [d D].
  assert (J : incl used (map snd new ++ used)) by (apply incl_appr, incl_refl).
  exists (plus (ins new) d). intros s R.
  assert (P := bound_split_all first). fold new in P.
  (* the first *)
  destruct (D (after_patterns first s)) as (body & s1 & EB & V1).
  { eapply resolves_after; [exact P|apply F|apply F|exact F|exact I|exact R]. }
  assert (V0 : moves used (ins new) s (after_patterns first s)) by (apply moves_after; [exact P|apply F|exact F]).
  assert (EG : exists gn, match g with
    | Some g => exists n, t_guard g (backwards prefixes first) (alloc (flat_map direct first) s) = Some (n, alloc (flat_map direct first) s) /\ gn = Some n
    | None => gn = None end).
  { destruct g as [g|]; [|exists None; reflexivity]. destruct LG as [LG _].
    destruct (guard_goes (new ++ vars) (flat_map aliased first) g LG (backwards prefixes first) (alloc (flat_map direct first) s)) as [gn E].
    - intros x X. left. apply aliased_all in X. apply in_map_iff in X. destruct X as ([y v] & E & X). cbn in E. subst y.
      clear - X. induction (backwards prefixes first) as [|[z w] l IH]; [destruct X|]. cbn. destruct (text_eqb z x) eqn:E; [discriminate|].
      destruct X as [X|X]; [injection X as -> ->; rewrite text_eqb_refl in E; discriminate|auto].
    - intros x l X O. apply lookup_in in X. assert (FD := fresh_perm _ _ _ P F). destruct (fresh_app _ _ _ FD) as [FD1 _].
      assert (RD := resolves_alloc used _ vars s FD1 I R). apply (RD x l). apply in_app_iff. apply in_app_iff in X. destruct X as [X|X]; [|right; exact X].
      left. eapply Permutation_in in X; [|exact P]. apply in_app_iff in X. destruct X as [X|X]; [exact X|]. exfalso. apply O, aliased_all.
      rewrite <- bare_names. apply in_map_iff. exists (x, l). auto.
    - exists (Some gn), gn. auto. }
  destruct EG as [gn EG].
  assert (E1 : t_branch c (t_expression c) first g e s = Some (branch_node s first gn body, s1)).
  { apply branch_is; [apply F|destruct g; exact EG|exact EB]. }
  (* the others *)
  set (Inv := fun s' => (forall x, count s' x = count s x + plus (ins new) d x)%N /\ (generated_variables s <= generated_variables s')%N /\
     (forall l, In l used -> place s' l = place s l) /\ (forall x l, In (x, l) new -> place s' l = Some (rho s x))).
  assert (Inv1 : Inv s1).
  { destruct V0 as (A0 & B0 & C0), V1 as (A1 & B1 & C1). repeat split.
    - intro x. rewrite A1, A0. unfold plus. lia.
    - lia.
    - intros l L. rewrite C1, C0; auto.
    - intros x l X. rewrite C1. { apply (place_after new _ _ P); [apply F|apply F|exact X]. }
      apply in_app_iff. left. apply in_map_iff. exists (x, l). auto. }
  set (one := fun patterns => bind (set_names (taken_names s)) (fun _ => t_branch c (t_expression c) patterns g e)).
  assert (O : forall alts, each (fun ps => fresh (map snd new ++ used) (flat_map bound_by ps) /\
                  forall x, In x (map fst new) <-> In x (map fst (flat_map bound_by ps))) alts ->
     each (fun ps => length ps = n /\ each legal_pattern ps) alts ->
     match g with Some g => each (fun ps => legal_guard (new ++ vars) (flat_map aliased ps) g) alts | None => True end ->
     forall sa, Inv sa -> exists nodes s', map_m one alts sa = Some (nodes, s') /\ Inv s' /\
       at_start used sa s' /\ Forall2 (branch_at used vars n s s') (map (fun ps => (ps, g, e)) alts) nodes).
  { induction alts as [|ps alts IH]; intros LA LPA LGA sa IA.
    - exists [], sa. split; [reflexivity|]. split; [exact IA|]. split; [apply start_refl|constructor].
    - cbn [each] in LA, LPA. destruct LA as [[FA NA] LA], LPA as [[LN1 LP1] LPA].
      set (sb := State (taken_names s) (variable_names sa) (generated_variables sa)).
      assert (CB : forall x, count sb x = count s x) by reflexivity.
      assert (PB : forall l, place sb l = place sa l) by reflexivity.
      assert (RB : forall x, rho sb x = rho s x) by reflexivity.
      destruct IA as (A0 & B0 & C0 & D0).
      assert (PA := bound_split_all ps).
      assert (RN : resolves (new ++ vars) sb).
      { intros x l X. rewrite PB. apply in_app_iff in X. destruct X as [X|X]; [rewrite (D0 x l X); discriminate|].
        rewrite C0; [apply (R x l X)|]. apply I, in_map_iff. exists (x, l). auto. }
      assert (VB : moves (map snd new ++ used) (ins (flat_map bound_by ps)) sb (after_patterns ps sb))
        by (apply moves_after; [exact PA|apply FA|exact FA]).
      destruct (D (after_patterns ps sb)) as (body' & s2 & E2 & V2).
      { eapply resolves_moves; [apply incl_new, I|exact VB|exact RN]. }
      assert (FD := fresh_perm _ _ _ PA FA). destruct (fresh_app _ _ _ FD) as [FD1 _].
      assert (VD := moves_alloc (map snd new ++ used) _ sb FD1).
      assert (LG1 : match g with Some g => legal_guard (new ++ vars) (flat_map aliased ps) g | None => True end).
      { destruct g; [apply LGA|exact Logic.I]. }
      assert (EG2 : exists gn, match g with
        | Some g => exists n, t_guard g (backwards prefixes ps) (alloc (flat_map direct ps) sb) = Some (n, alloc (flat_map direct ps) sb) /\ gn = Some n
        | None => gn = None end).
      { destruct g as [g|]; [|exists None; reflexivity].
        destruct (guard_goes (new ++ vars) (flat_map aliased ps) g LG1 (backwards prefixes ps) (alloc (flat_map direct ps) sb)) as [gn2 E].
        - intros x X. left. apply aliased_all in X. apply in_map_iff in X. destruct X as ([y v] & E & X). cbn in E. subst y.
          clear - X. induction (backwards prefixes ps) as [|[z w] l IH]; [destruct X|]. cbn. destruct (text_eqb z x) eqn:E; [discriminate|].
          destruct X as [X|X]; [injection X as -> ->; rewrite text_eqb_refl in E; discriminate|auto].
        - intros x l X _. apply lookup_in in X. eapply resolves_moves; [apply incl_new, I|exact VD|exact RN|exact X].
        - exists (Some gn2), gn2. auto. }
      destruct EG2 as [gn2 EG2].
      assert (EX : one ps sa = Some (branch_node sb ps gn2 body', s2)).
      { unfold one. erewrite bind_eq by reflexivity. apply branch_is; [apply FA|destruct g; exact EG2|exact E2]. }
      assert (Inv2 : Inv s2).
      { destruct VB as (A1 & B1 & C1), V2 as (A2 & B2 & C2). repeat split.
        - intro x. rewrite A2, A1, CB. unfold plus. rewrite (ins_same new (flat_map bound_by ps) x (NA x)). lia.
        - cbn in B1. lia.
        - intros l L. rewrite C2, C1, PB, C0; auto.
        - intros x l X. assert (In l (map snd new ++ used)) by (apply in_app_iff; left; apply in_map_iff; exists (x, l); auto).
          rewrite C2, C1, PB by assumption. apply D0, X. }
      destruct (IH LA LPA) with (sa := s2) as (nodes & s3 & E3 & Inv3 & S3 & B3); [destruct g; [apply LGA|exact Logic.I]|exact Inv2|].
      exists (branch_node sb ps gn2 body' :: nodes), s3. split.
      { cbn [map_m]. erewrite bind_eq by exact EX. erewrite bind_eq by exact E3. reflexivity. }
      split; [exact Inv3|]. split.
      { eapply start_trans; [|exact S3]. destruct Inv2 as (A1 & B1 & C1 & D1). destruct V2 as (A2 & B2 & C2), VB as (A3 & B3' & C3).
        repeat split.
        - intro x. rewrite A0, A1. lia.
        - cbn in B3'. lia.
        - intros l L. rewrite C1, C0; auto. }
      cbn [map]. constructor; [|exact B3].
      exists sb, gn2, body', s2, new. split.
      { repeat split; [intro x; rewrite CB; lia|exact B0|]. intros l L. rewrite PB. apply C0, L. }
      split; [exact LN1|]. split; [exact F|]. split.
      { destruct FA as (FA1 & FA2 & FA3). split; [exact FA1|]. split; [exact FA2|]. eapply Forall_impl; [|exact FA3].
        intros a [La Na]. split; [exact La|]. intro. apply Na, J. assumption. }
      split; [exact NA|]. split.
      { intros x l X. destruct VB as (_ & _ & C1). rewrite C1 by (apply in_app_iff; left; apply in_map_iff; exists (x, l); auto).
        rewrite PB, RB. apply D0, X. }
      split.
      { intros x l X _. destruct VD as (_ & _ & C1). rewrite C1 by (apply in_app_iff; left; apply in_map_iff; exists (x, l); auto).
        rewrite PB, RB. apply D0, X. }
      split; [destruct g; [split; [exact LG1|exact EG2]|exact EG2]|].
      split; [exact LE|]. split; [exact NB|]. split; [exact LP1|]. split; [exact E2|]. split; [reflexivity|exact S3]. }
  destruct LP as [[LN1 LP1] LPO].
  destruct (O others LO LPO) with (sa := s1) as (nodes & s2 & E2 & Inv2 & S2 & B2); [destruct g; [apply LG|exact Logic.I]|exact Inv1|].
  exists (branch_node s first gn body :: nodes), s2. split; [|split].
  - unfold t_clause. erewrite bind_eq by reflexivity. erewrite bind_eq by exact E1. fold one. erewrite bind_eq by exact E2. reflexivity.
  - destruct Inv2 as (A & B & C & _). repeat split; auto.
  - cbn [map]. constructor; [|exact B2]. exists s, gn, body, s1, new. split; [apply start_refl|]. split; [exact LN1|]. split; [exact F|]. split; [exact F|].
    split; [reflexivity|]. split; [intros x l X; apply (place_after new _ _ P); [apply F|apply F|exact X]|]. split.
    { intros x l X O'. assert (FD := fresh_perm _ _ _ P F). destruct (fresh_app _ _ _ FD) as [(FD1 & FD2 & _) _].
      apply place_alloc; [exact FD1|exact FD2|]. eapply Permutation_in in X; [|exact P]. apply in_app_iff in X. destruct X as [X|X]; [exact X|].
      exfalso. apply O', aliased_all. rewrite <- bare_names. apply in_map_iff. exists (x, l). auto. }
    split; [destruct g; [split; [apply LG|exact EG]|exact EG]|]. split; [exact LE|]. split; [exact NB|]. split; [exact LP1|].
    split; [exact EB|]. split; [reflexivity|exact S2].
Qed.
Lemma clauses_go used vars n clauses : Forall (fun c => G (snd c) /\ forall l, snd c = Block l -> Forall (in_stmt G) l) clauses ->
  incl (map snd vars) used -> each (legal_clause used vars n) clauses -> exists d, forall s, resolves vars s -> exists nodes s',
    map_m (t_clause c (t_expression c)) clauses s = Some (nodes, s') /\ moves used d s s' /\
    Forall2 (branch_at used vars n s s') (branches clauses) (concat nodes).
Proof.
  intros H I. induction H as [|[[[first others] g] e] l [HE HB] _ IH]; intro L.
  - exists none. intros s R. exists [], s. split; [reflexivity|]. split; [apply moves_none|constructor].
  - cbn [each] in L. destruct L as [L1 L2]. cbn [snd] in *. destruct (clause_goes used vars n first others g e HE HB I L1) as [d D].
    destruct (IH L2) as [d' D']. exists (plus d d'). intros s R. destruct (D s R) as (ns & s1 & E1 & V1 & B1).
    destruct (D' s1) as (nss & s2 & E2 & V2 & B2); [eapply resolves_moves; eassumption|].
    exists (ns :: nss), s2. split; [|split].
    + cbn [map_m]. erewrite bind_eq by exact E1. erewrite bind_eq by exact E2. reflexivity.
    + eapply moves_trans; eassumption.
    + unfold branches in *. cbn [flat_map concat]. apply Forall2_app.
      * eapply Forall2_impl'; [|exact B1]. intros. eapply branch_at_end; [|eassumption]. eapply moves_start, V2.
      * eapply Forall2_impl'; [|exact B2]. intros. eapply branch_at_start; [|eassumption]. eapply moves_start, V1.
Qed.

(** ** Expressions *)

Lemma operator_goes op a b used vars : G a -> G b -> incl (map snd vars) used -> legal used vars a -> legal used vars b ->
  exists d, goes vars used d (t_operator (t_expression c) op a b).
Proof.
  intros A B I LA LB. destruct (maybe_goes a used vars A I LA) as [d D]. destruct (maybe_goes b used vars B I LB) as [d' D'].
  assert (T : forall s, exists d, goes vars used d (t_division (t_expression c) a b s)).
  { intro s. unfold t_division. destruct (how_to_divide a b) as [| | |[]].
    - eexists. eapply goes_bind; [exact I|exact D|]. intro. eapply goes_bind; [exact I|exact D'|]. intro. apply goes_ret.
    - eexists. apply goes_ret.
    - eexists. eapply goes_bind; [exact I|exact D|]. intro. apply goes_ret.
    - eexists. eapply goes_bind; [exact I|exact D'|]. intro. eapply goes_bind; [exact I|apply goes_generated|]. intro.
      eapply goes_bind; [exact I|exact D|]. intro. apply goes_ret.
    - eexists. eapply goes_bind; [exact I|apply goes_generated|]. intro. eapply goes_bind; [exact I|exact D|]. intro.
      eapply goes_bind; [exact I|exact D'|]. intro. eapply goes_bind; [exact I|apply goes_generated|]. intro. apply goes_ret. }
  destruct op; cbn [t_operator plain_symbol]; try apply T;
    (eexists; eapply goes_bind; [exact I|exact D|]; intro; eapply goes_bind; [exact I|exact D'|]; intro; apply goes_ret).
Qed.
Lemma variable_goes x v used vars : legal_variable module vars x v -> exists d, goes vars used d (t_var c x v).
Proof.
  destruct v as [l|m f a [[em ef]|] p|n [k|]]; cbn [legal_variable t_var]; intro L; try (exists none; apply goes_ret).
  - exists none. intros s R. destruct (goes_place vars used x l L s R) as (y & s' & E & V). exists (NVar y), s'.
    split; [erewrite bind_eq by exact E; reflexivity|exact V].
  - exists none. intros s R. eexists _, _. split; [unfold t_record_builder; erewrite bind_eq by apply generated_is; reflexivity|].
    repeat split; cbn; intros; unfold none, count; cbn; lia || reflexivity.
Qed.

Lemma expression_goes_ e : G e /\ forall l, e = Block l -> Forall (in_stmt G) l.
Proof.
  assert (ST : forall l, Forall (in_stmt (fun e => G e /\ forall l, e = Block l -> Forall (in_stmt G) l)) l -> Forall (in_stmt G) l).
  { intros l H. eapply Forall_impl; [|exact H]. intros [e'|p e'|p e' ee m loc]; cbn; [tauto|tauto|]. intros ((? & _) & M). split; [assumption|].
    destruct m; [apply M|exact I]. }
  assert (FG : forall l, Forall (fun e => G e /\ forall l, e = Block l -> Forall (in_stmt G) l) l -> Forall G l).
  { intros l H. eapply Forall_impl; [|exact H]. intros ? []; assumption. }
  pattern e. apply expr_rect'; clear e; intros.
  - split; [|discriminate]. intros used vars I L. exists none. apply goes_ret.
  - split; [|discriminate]. intros used vars I L. exists none. apply goes_ret.
  - split; [|discriminate]. intros used vars I L. destruct (variable_goes x v used vars L) as [d D]. eexists.
    cbn [t_expression t_expression_]. eapply goes_bind; [exact I|exact D|]. intro. apply goes_ret.
  - specialize (ST l H). split; [|intros l' E; injection E as <-; exact ST]. intros used vars I [NE L].
    assert (B : exists d, goes vars used d (bind (t_body c (t_expression c) l) (fun inner => ret [NBlock inner]))).
    { destruct (body_goes l ST used vars I L) as [d D]. eexists. eapply goes_bind; [exact I|exact D|]. intro. apply goes_ret. }
    cbn [t_expression t_expression_]. destruct l as [|[e|p e|p e ee m loc] [|]]; try exact B.
    inversion ST; subst. destruct L as [L _]. destruct (maybe_goes e used vars H2 I L) as [d D]. eexists.
    eapply goes_bind; [exact I|exact D|]. intro. apply goes_ret.
  - split; [|discriminate]. intros used vars I [L _]. destruct (maybe_goes e used vars (proj1 H) I L) as [d D]. eexists.
    cbn [t_expression t_expression_]. eapply goes_bind; [exact I|exact D|]. intro. apply goes_ret.
  - split; [|discriminate]. intros used vars I [L _]. destruct (maybe_goes e used vars (proj1 H) I L) as [d D]. eexists.
    cbn [t_expression t_expression_]. eapply goes_bind; [exact I|exact D|]. intro. apply goes_ret.
  - split; [|discriminate]. intros used vars I (L1 & L2 & _). apply operator_goes; try assumption; tauto.
  - split; [|discriminate]. intros used vars I (L1 & L2). destruct (maybes_go l used vars (FG l H) I L1) as [d D].
    assert (T : exists d', goes vars used d' (match tail with Some e => t_maybe (t_expression c) e | None => ret NNil end)).
    { destruct tail; [apply maybe_goes; try assumption; [apply H0|apply L2]|exists none; apply goes_ret]. }
    destruct T as [d' D']. eexists. cbn [t_expression t_expression_]. eapply goes_bind; [exact I|exact D|]. intro.
    eapply goes_bind; [exact I|exact D'|]. intro. apply goes_ret.
  - split; [|discriminate]. intros used vars I L. destruct (maybes_go l used vars (FG l H) I L) as [d D]. eexists.
    cbn [t_expression t_expression_]. eapply goes_bind; [exact I|exact D|]. intro. apply goes_ret.
  - split; [|discriminate]. intros used vars I L. destruct (maybe_goes e used vars (proj1 H) I L) as [d D]. eexists.
    cbn [t_expression t_expression_]. eapply goes_bind; [exact I|exact D|]. intro. apply goes_ret.
  - split; [|discriminate]. intros used vars I L. destruct (maybe_goes e used vars (proj1 H) I L) as [d D]. eexists.
    cbn [t_expression t_expression_]. eapply goes_bind; [exact I|exact D|]. intro. apply goes_ret.
  - split; [|discriminate]. intros used vars I L. cbn [t_expression t_expression_]. destruct x as [x|].
    + destruct L as (L1 & F & L2). assert (I' : incl (map snd vars) (l :: used)) by (intros y Y; right; apply I, Y).
      destruct (maybe_goes e _ vars (proj1 H) I' L1) as [d D].
      destruct (call_goes f args _ _ (proj1 H0) (FG args H1) (incl_new [(x, l)] vars used I) L2) as [d' D'].
      exists (plus (ins [(x, l)]) (plus d d')). intros s R. assert (V0 := moves_alloc used [(x, l)] s F).
      destruct (D (alloc [(x, l)] s)) as (n & s1 & E1 & V1); [exact (resolves_moves _ _ _ _ _ I V0 R)|].
      destruct (D' s1) as (n2 & s2 & E2 & V2).
      { eapply resolves_moves; [exact (incl_new [(x, l)] vars used I)|exact V1|]. exact (resolves_alloc used [(x, l)] vars s F I R). }
      eexists _, s2. split.
      * unfold t_bind. erewrite bind_eq by (erewrite bind_eq by apply new_variable; erewrite bind_eq by exact E1; reflexivity).
        erewrite bind_eq by exact E2. reflexivity.
      * assert (J : incl used (l :: used)) by (apply incl_tl, incl_refl).
        eapply moves_trans; [exact V0|]. eapply moves_trans; eapply moves_less; eassumption.
    + destruct (call_goes f args used vars (proj1 H0) (FG args H1) I L) as [d D]. eexists. eapply goes_bind; [exact I|exact D|]. intro. apply goes_ret.
  - split; [|discriminate]. intros used vars I (F & NE & L). destruct (body_goes body (ST body H) _ _ (incl_new _ vars used I) L) as [d D].
    exists none. intros s R. destruct (D (alloc (arguments_bound args) s)) as (ns & s1 & E1 & V1); [apply (resolves_alloc used); assumption|].
    eexists _, _. split.
    + cbn [t_expression t_expression_]. erewrite bind_eq by reflexivity. erewrite bind_eq by (apply arguments_ok; apply F).
      erewrite bind_eq by exact E1. erewrite bind_eq by reflexivity. reflexivity.
    + assert (V0 := moves_alloc used _ s F). destruct V0 as (A0 & B0 & C0), V1 as (A1 & B1 & C1). repeat split.
      * intro x. unfold none, count. cbn. lia.
      * cbn. lia.
      * intros l Il. change (place s1 l = place s l). rewrite C1, C0; [reflexivity|exact Il|apply in_app_iff; auto].
  - split; [|discriminate]. intros used vars I L. destruct (call_goes f args used vars (proj1 H) (FG args H0) I L) as [d D]. eexists.
    cbn [t_expression t_expression_]. eapply goes_bind; [exact I|exact D|]. intro. apply goes_ret.
  - split; [|discriminate]. intros used vars I L. destruct (steps_go last (proj1 H0) l) with (used := used) (vars := vars) as [d D]; auto.
    { eapply Forall_impl; [|exact H]. intros ? []; assumption. }
    exists d. intros s R. destruct (D s R) as (ns & s1 & ls & s2 & E1 & E2 & V). exists (ns ++ ls), s2. split; [|exact V].
    cbn [t_expression t_expression_]. erewrite bind_eq by exact E1. erewrite bind_eq by exact E2. reflexivity.
  - split; [|discriminate]. intros used vars I L. destruct (message_goes k m used vars) as [d D]; auto.
    { destruct m; [apply H|exact Logic.I]. }
    eexists. cbn [t_expression t_expression_]. eapply goes_bind; [exact I|exact D|]. intro. apply goes_ret.
  - split; [|discriminate]. intros used vars I (L1 & _ & L2).
    assert (S : exists d, goes vars used d (match l with [e] => t_maybe (t_expression c) e | _ => do inner <- map_m (t_maybe (t_expression c)) l; ret (NTuple inner) end)).
    { assert (T : exists d, goes vars used d (do inner <- map_m (t_maybe (t_expression c)) l; ret (NTuple inner))).
      { destruct (maybes_go l used vars (FG l H) I L1) as [d D]. eexists. eapply goes_bind; [exact I|exact D|]. intro. apply goes_ret. }
      destruct l as [|e [|]]; [exact T| |exact T]. inversion H; subst. apply maybe_goes; [apply H3|exact I|apply L1]. }
    destruct S as [d D]. destruct (clauses_go used vars (length l) clauses H0 I L2) as [d' D'].
    exists (plus d d'). intros s R. destruct (D s R) as (n & s1 & E1 & V1). destruct (D' s1) as (ns & s2 & E2 & V2 & _); [eapply resolves_moves; eassumption|].
    eexists _, s2. split; [|eapply moves_trans; eassumption].
    cbn [t_expression t_expression_]. erewrite bind_eq. 2:{ unfold t_case. erewrite bind_eq by exact E1. erewrite bind_eq by exact E2. reflexivity. }
    reflexivity.
Qed.
Lemma expression_goes e : G e.
Proof. apply expression_goes_. Qed.
End State.
