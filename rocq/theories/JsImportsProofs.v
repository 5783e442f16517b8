(** Proofs about the imports of generated JavaScript. *)
From Coq Require Import String Arith NArith List Bool Permutation Lia.
From Coq Require Import ZifyBool ZifyNat ZifyN.
From Verif Require Import Text TextProofs JsScope ManifestText ManifestTextSpec ManifestTextProofs JsImports JsImportsSpec.
Import ListNotations.
Local Open Scope list_scope.
Local Open Scope N_scope.

(** ** Paths *)
Lemma lower_name_chars s : lower_name s -> s <> [] /\ forall c, In c s -> lower c \/ digit_ c \/ c = 95.
Proof.
  intros (c & r & -> & L & F). split; [discriminate|]. intros x [<-|I]; auto. rewrite Forall_forall in F. auto.
Qed.
Lemma lower_name_slash s : lower_name s -> ~ In 47 s.
Proof. intros L I. apply lower_name_chars in L as [_ L]. specialize (L _ I). unfold lower, digit_ in L. lia. Qed.
Lemma lower_name_not s : lower_name s -> s <> [] /\ s <> str "." /\ s <> str "..".
Proof.
  intros (c & r & -> & L & _). split; [discriminate|]. unfold lower in L.
  split; intro E; injection E as -> _; lia.
Qed.
Lemma file_name_not s : lower_name s -> s ++ str ".mjs" <> [] /\ s ++ str ".mjs" <> str "." /\ s ++ str ".mjs" <> str ".." /\ ~ In 47 (s ++ str ".mjs").
Proof.
  intros H. pose proof (lower_name_slash _ H) as N. destruct H as (c & r & -> & L & _). unfold lower in L.
  split; [discriminate|]. split; [intro E; injection E as -> _; lia|]. split; [intro E; injection E as -> _; lia|].
  rewrite in_app_iff. intros [I|I]; [exact (N I)|]. vm_compute in I. intuition discriminate.
Qed.
Lemma components_one n : n <> [] -> n <> str "." -> ~ In 47 n -> components n = [n].
Proof.
  intros A B C. rewrite <- (app_nil_r n) at 1. rewrite components_name by auto.
  rewrite (proj2 (text_eqb_neq n _) B). reflexivity.
Qed.
Lemma components_more n r : n <> [] -> n <> str "." -> ~ In 47 n -> components (n ++ 47 :: r) = n :: components r.
Proof.
  intros A B C. rewrite components_name; eauto. rewrite (proj2 (text_eqb_neq n _) B), components_slash. reflexivity.
Qed.

Lemma module_pieces m : module_name m -> exists l s, Forall lower_name l /\ lower_name s /\ pieces m = l ++ [s]
  /\ components m = l ++ [s] /\ components (m ++ str ".mjs") = l ++ [s ++ str ".mjs"]
  /\ join (l ++ [s ++ str ".mjs"]) = m ++ str ".mjs" /\ (l = [] /\ m = s \/ exists q, m = q ++ 47 :: s).
Proof.
  induction 1 as [s L|s r L M (l & t & F & T & P & C & D & J & K)].
  - exists [], s. pose proof (lower_name_slash _ L). destruct (lower_name_not _ L) as (A & B & _).
    destruct (file_name_not _ L) as (E & G & _ & I).
    split; [constructor|]. split; [exact L|]. split; [apply pieces_alone; assumption|].
    split; [apply components_one; assumption|]. split; [apply components_one; assumption|]. split; [reflexivity|]. left. auto.
  - exists (s :: l), t. pose proof (lower_name_slash _ L). destruct (lower_name_not _ L) as (A & B & _).
    split; [constructor; assumption|]. split; [exact T|]. split; [rewrite pieces_then, P by assumption; reflexivity|].
    split; [rewrite components_more, C by assumption; reflexivity|].
    split; [rewrite <- app_assoc; cbn [app]; rewrite components_more, D by assumption; reflexivity|].
    split.
    + assert (forall l x, l <> [] -> join (x :: l) = x ++ str "/" ++ join l) as JJ by (intros [|? ?] ? N; [congruence|reflexivity]).
      cbn [app]. rewrite JJ, J, <- app_assoc; [reflexivity|]. destruct l; discriminate.
    + right. destruct K as [(-> & ->)|(q & ->)]; [exists s; reflexivity|]. exists (s ++ 47 :: q). now rewrite <- app_assoc.
Qed.

Lemma components_ups n x : components (repeat_text (str "../") n ++ x) = repeat (str "..") n ++ components x.
Proof.
  induction n as [|n IH]; [reflexivity|]. cbn [repeat_text repeat app]. rewrite <- app_assoc.
  change (str "../" ++ (repeat_text (str "../") n ++ x)) with (str ".." ++ 47 :: (repeat_text (str "../") n ++ x)).
  rewrite components_more, IH; [reflexivity|discriminate|discriminate|vm_compute; intuition discriminate].
Qed.
Lemma walk_ups n l : walk l (repeat (str "..") n) = skipn n l.
Proof.
  revert l. induction n as [|n IH]; intro l; [reflexivity|]. cbn [repeat walk]. rewrite text_eqb_refl, IH.
  destruct l; [destruct n|]; reflexivity.
Qed.
Lemma file_no_dots pkg l s : Forall lower_name l -> lower_name s -> lower_name pkg -> ~ In (str "..") (pkg :: l ++ [s ++ str ".mjs"]).
Proof.
  intros F S P. rewrite Forall_forall in F. cbn [In]. rewrite in_app_iff. intros [E|[I|[E|[]]]].
  - apply (lower_name_not _ P). exact E.
  - apply (lower_name_not _ (F _ I)). reflexivity.
  - destruct (file_name_not _ S) as (_ & _ & X & _). exact (X E).
Qed.
Definition owner (m : gleam_module) (pkg : text) : text := match pkg with [] => package m | _ => pkg end.

Lemma near_path n x :
  relative (match S n with 1%nat => str "./" ++ x | k => repeat_text (str "../") (k - 1) ++ x end)
  /\ components (match S n with 1%nat => str "./" ++ x | k => repeat_text (str "../") (k - 1) ++ x end) = repeat (str "..") n ++ components x.
Proof.
  destruct n as [|n].
  - split; [exists x; left; reflexivity|]. cbn [repeat app].
    change (str "./" ++ x) with (str "." ++ 47 :: x).
    rewrite components_name; [|discriminate|vm_compute; intuition discriminate|right; eauto]. rewrite text_eqb_refl. apply components_slash.
  - replace (S (S n) - 1)%nat with (S n) by lia. split; [|apply components_ups].
    cbn [repeat_text]. rewrite <- app_assoc. eexists. right. reflexivity.
Qed.

Lemma import_path_finds m pkg module : lower_name (package m) -> module_name (name m) -> pkg = [] \/ lower_name pkg ->
  module_name module -> finds m (import_path m pkg module) pkg module.
Proof.
  intros P M G D. destruct (module_pieces _ M) as (l & s & Fl & Ls & Pc & Cn & _ & _ & _).
  destruct (module_pieces _ D) as (k & t & Fk & Lt & _ & _ & Cd & _ & _).
  assert (segments_count m = S (Datatypes.length l)) as N by (unfold segments_count; rewrite Pc, app_length; cbn; lia).
  assert (directory_of (package m) (name m) (package m :: l)) as DIR.
  { exists (l ++ [s]). split; [rewrite <- Cn; apply components_splits|]. now rewrite removelast_last. }
  assert (FILE : forall q, file_of q module (q :: k ++ [t ++ str ".mjs"])).
  { intro q. exists (k ++ [t ++ str ".mjs"]). split; [rewrite <- Cd; apply components_splits|reflexivity]. }
  assert (forall (w : list text), skipn (Datatypes.length l) (rev (package m :: l)) = [package m]) as UP.
  { intros _. cbn [rev]. rewrite skipn_app, rev_length, Nat.sub_diag, skipn_all2 by (rewrite rev_length; lia). reflexivity. }
  unfold finds, import_path. fold (owner m pkg). rewrite N.
  destruct (text_eqb pkg (package m) || text_eqb pkg []) eqn:E.
  - assert (owner m pkg = package m) as ->.
    { apply orb_prop in E as [E|E]; apply text_eqb_eq in E; subst pkg; [|reflexivity].
      unfold owner. destruct (package m); reflexivity. }
    destruct (near_path (Datatypes.length l) (module ++ str ".mjs")) as (R & C).
    match type of R with relative ?x => set (p := x) in * end.
    split; [exact R|]. exists (package m :: l), (components p), (package m :: k ++ [t ++ str ".mjs"]).
    split; [exact DIR|]. split; [apply components_splits|]. split; [apply FILE|].
    rewrite C, walk_app, walk_ups, (UP []), Cd, walk_down; [reflexivity|].
    intro I. apply (file_no_dots (package m) k t Fk Lt P). right. exact I.
  - apply orb_false_elim in E as [E1 E2]. apply text_eqb_neq in E1, E2.
    destruct G as [G|G]; [contradiction|]. assert (owner m pkg = pkg) as -> by (destruct pkg; [contradiction|reflexivity]).
    set (p := repeat_text _ _ ++ _).
    split; [subst p; cbn [repeat_text]; rewrite <- app_assoc; eexists; right; reflexivity|].
    exists (package m :: l), (components p), (pkg :: k ++ [t ++ str ".mjs"]).
    split; [exact DIR|]. split; [apply components_splits|]. split; [apply FILE|]. subst p. rewrite components_ups.
    change (pkg ++ str "/" ++ module ++ str ".mjs") with (pkg ++ 47 :: (module ++ str ".mjs")).
    destruct (lower_name_not _ G) as (A & B & _).
    rewrite components_more, Cd by (auto using lower_name_slash).
    rewrite walk_app, walk_ups. rewrite skipn_all2 by (rewrite rev_length; cbn; lia).
    rewrite walk_down by (apply file_no_dots; assumption). apply app_nil_r.
Qed.

Lemma finds_same m p a b c d : module_name b -> module_name d -> finds m p a b -> finds m p c d -> owner m a = owner m c /\ b = d.
Proof.
  intros B D (_ & d1 & w1 & f1 & (l1 & S1 & ->) & W1 & (k1 & K1 & ->) & E1) (_ & d2 & w2 & f2 & (l2 & S2 & ->) & W2 & (k2 & K2 & ->) & E2).
  apply splits_components in S1, S2, W1, W2, K1, K2. subst. rewrite E1 in E2. apply (f_equal (@rev _)) in E2.
  rewrite !rev_involutive in E2. pose proof (f_equal (fun l => hd [] l) E2) as E. pose proof (f_equal (@tl _) E2) as F. cbn [hd tl] in E, F. split; [exact E|].
  destruct (module_pieces _ B) as (l & s & _ & _ & _ & _ & C1 & J1 & _). destruct (module_pieces _ D) as (l' & s' & _ & _ & _ & _ & C2 & J2 & _).
  rewrite C1, C2 in F. rewrite F, J2 in J1. now apply app_inv_tail in J1.
Qed.

(** ** What is bound by imports *)
Definition star (p a : text) : text * target := (a, (p, None)).
Definition named (p : text) (m : member) : text * target :=
  (match alias m with Some a => a | None => member_name m end, (p, Some (member_name m))).
Definition raw_import (i : import) : list (text * target) := map (star (path i)) (aliases i) ++ map (named (path i)) (unqualified i).
Definition raw (i : imports) : list (text * target) := flat_map (fun x => raw_import (snd x)) (modules i).
Definition kept (i : imports) : Prop := NoDup (map fst (modules i)) /\ Forall (fun x => path (snd x) = fst x) (modules i).

Lemma perm_middle {A} (a b c d e : list A) : Permutation ((a ++ d ++ b ++ e) ++ c) ((a ++ b ++ c) ++ d ++ e).
Proof.
  rewrite <- !app_assoc. apply Permutation_app_head. etransitivity; [apply Permutation_app_comm|]. rewrite <- !app_assoc. apply Permutation_app_head.
  etransitivity; [apply Permutation_app_comm|]. rewrite <- app_assoc. reflexivity.
Qed.
Lemma entry_raw p as_ ms l : Forall (fun x => path (snd x) = fst x) l ->
  Permutation (flat_map (fun x => raw_import (snd x)) (entry p (fun i => Import (path i) (aliases i ++ as_) (unqualified i ++ ms)) l))
    (flat_map (fun x => raw_import (snd x)) l ++ map (star p) as_ ++ map (named p) ms).
Proof.
  induction 1 as [|(q & i) l K F IH]; cbn [entry flat_map].
  - cbn. rewrite app_nil_r. reflexivity.
  - cbn in K. destruct (text_eqb q p) eqn:E.
    + apply text_eqb_eq in E. subst q. cbn [flat_map snd]. unfold raw_import at 1 3. cbn [path aliases unqualified].
      rewrite !map_app, E. rewrite <- (app_assoc (map (star p) (aliases i)) (map (named p) (unqualified i))).
      rewrite <- perm_middle. rewrite <- !app_assoc. reflexivity.
    + cbn [flat_map snd]. rewrite IH, app_assoc. reflexivity.
Qed.
Lemma entry_kept p f l : (forall i, path (f i) = path i) -> NoDup (map fst l) /\ Forall (fun x => path (snd x) = fst x) l ->
  NoDup (map fst (entry p f l)) /\ Forall (fun x => path (snd x) = fst x) (entry p f l)
  /\ forall q, In q (map fst (entry p f l)) -> q = p \/ In q (map fst l).
Proof.
  intro H. induction l as [|(q & i) l IH]; intros [N F].
  - cbn. split; [constructor; [intros []|constructor]|]. split; [constructor; [apply H|constructor]|]. intuition congruence.
  - cbn [entry]. inversion N as [|? ? N1 N2]. subst. inversion F as [|? ? F1 F2]. subst. cbn in F1. destruct (text_eqb q p) eqn:E.
    + cbn. split; [exact N|]. split; [constructor; [cbn; rewrite H; exact F1|exact F2]|]. intuition.
    + destruct (IH (conj N2 F2)) as (A & B & C). cbn [map fst]. split.
      * constructor; [|exact A]. intro I. apply C in I as [I|I]; [|contradiction]. apply text_eqb_neq in E. cbn in I. contradiction.
      * split; [constructor; assumption|]. intros x [<-|I]; [right; left; reflexivity|]. apply C in I as [->|I]; [left; reflexivity|right; right; exact I].
Qed.
Lemma register_module_kept i p as_ ms : kept i -> kept (register_module i p as_ ms).
Proof. intro K. unfold kept. cbn. destruct (entry_kept p (fun i => Import (path i) (aliases i ++ as_) (unqualified i ++ ms)) (modules i)) as (A & B & _); auto. Qed.
Lemma register_module_raw i p as_ ms : kept i ->
  Permutation (raw (register_module i p as_ ms)) (raw i ++ map (star p) as_ ++ map (named p) ms).
Proof. intros [_ K]. apply entry_raw. exact K. Qed.

Lemma fold_register {A} (f : imports -> A -> imports) (d : A -> list (text * target)) :
  (forall i a, kept i -> kept (f i a) /\ Permutation (raw (f i a)) (raw i ++ d a)) ->
  forall l i, kept i -> kept (fold_left f l i) /\ Permutation (raw (fold_left f l i)) (raw i ++ flat_map d l).
Proof.
  intros H. induction l as [|a l IH]; intros i K; cbn [fold_left flat_map]; [rewrite app_nil_r; split; [exact K|reflexivity]|].
  destruct (H i a K) as (K1 & P1). destruct (IH _ K1) as (K2 & P2). split; [exact K2|]. rewrite P2, P1, app_assoc. reflexivity.
Qed.

(** What each registration adds. *)
Definition module_binding (m : gleam_module) (g : gleam_import) : list (text * target) :=
  match as_name g with
  | None => [star (import_path m (from_package g) (from_module g)) (str "$" ++ last (pieces (from_module g)) [])]
  | Some None => []
  | Some (Some n) => [star (import_path m (from_package g) (from_module g)) (str "$" ++ n)]
  end.
Definition value_binding (m : gleam_module) (g : gleam_import) (v : text * option text) : text * target :=
  (maybe_escape_identifier (used_as v), (import_path m (from_package g) (from_module g), Some (maybe_escape_identifier (fst v)))).
Definition import_bindings m g := module_binding m g ++ map (value_binding m g) (values g).
Definition external_binding (e : external) : text * target :=
  (maybe_escape_identifier (function e), (js_module e, Some (js_function e))).
Definition prelude_binding m (u : text * option text) : text * target :=
  (match snd u with Some a => a | None => fst u end, (import_path m (package m) (str "gleam"), Some (fst u))).
Definition constant_binding m (c : variant * option text) : text * target :=
  (match snd c with Some a => a | None => constant (v_type (fst c)) (v_name (fst c)) end,
   (import_path m (v_package (fst c)) (v_module (fst c)), Some (constant (v_type (fst c)) (v_name (fst c))))).

Lemma register_import_raw m i g : kept i -> kept (register_import m i g) /\ Permutation (raw (register_import m i g)) (raw i ++ import_bindings m g).
Proof.
  intro K. unfold register_import, import_bindings, module_binding.
  assert (forall p, map (named p) (map (fun '(n, a) => Member (maybe_escape_identifier n) (option_map maybe_escape_identifier a)) (values g))
          = map (fun v => (maybe_escape_identifier (used_as v), (p, Some (maybe_escape_identifier (fst v))))) (values g)) as V.
  { intro p. rewrite map_map. apply map_ext. intros (n & [a|]); reflexivity. }
  destruct (as_name g) as [[n|]|]; (split; [apply register_module_kept, K|rewrite register_module_raw, V by exact K; reflexivity]).
Qed.
Lemma register_external_raw i e : kept i -> kept (register_external_function i e) /\ Permutation (raw (register_external_function i e)) (raw i ++ [external_binding e]).
Proof.
  intro K. unfold register_external_function. set (i' := if public e then _ else i).
  assert (kept i' /\ raw i' = raw i) as (K' & R) by (subst i'; destruct (public e); split; auto).
  split; [apply register_module_kept, K'|]. rewrite register_module_raw, R by exact K'. cbn [map app].
  unfold named, external_binding, maybe_escape_identifier. cbn [alias member_name].
  destruct (is_usable_js_identifier (function e)) eqn:U; cbn [negb andb];
    destruct (text_eqb (function e) (js_function e)) eqn:E; cbn [andb]; try reflexivity.
  apply text_eqb_eq in E. rewrite E. reflexivity.
Qed.
Lemma register_prelude_raw m i u : kept i -> kept (register_prelude_usage m i u) /\ Permutation (raw (register_prelude_usage m i u)) (raw i ++ [prelude_binding m u]).
Proof. intro K. split; [apply register_module_kept, K|]. unfold register_prelude_usage. rewrite register_module_raw by exact K. reflexivity. Qed.
Lemma register_constant_raw m i c : kept i -> kept (register_constant m i c) /\ Permutation (raw (register_constant m i c)) (raw i ++ [constant_binding m c]).
Proof. destruct c as (v & a). intro K. split; [apply register_module_kept, K|]. unfold register_constant. rewrite register_module_raw by exact K. reflexivity. Qed.

(** ** Leaving out classes *)
Definition same_target (t u : target) : bool :=
  text_eqb (fst t) (fst u) && match snd t, snd u with Some a, Some b => text_eqb a b | None, None => true | _, _ => false end.
Lemma same_target_eq t u : same_target t u = true <-> t = u.
Proof.
  destruct t as (p & [a|]), u as (q & [b|]); unfold same_target; cbn; rewrite ?andb_true_iff, ?text_eqb_eq; (split; [intros [? ?]|intro E; injection E]); try discriminate; intuition congruence.
Qed.
Definition count (t : target) (l : list (text * target)) : nat := Datatypes.length (filter (fun b => same_target (snd b) t) l).
Lemma count_app t l k : count t (l ++ k) = (count t l + count t k)%nat.
Proof. unfold count. now rewrite filter_app, app_length. Qed.
Lemma filter_perm {A} (f : A -> bool) l l' : Permutation l l' -> Permutation (filter f l) (filter f l').
Proof.
  induction 1; cbn; auto.
  - destruct (f x); auto.
  - destruct (f x), (f y); auto. apply perm_swap.
  - etransitivity; eauto.
Qed.
Lemma count_perm t l l' : Permutation l l' -> count t l = count t l'.
Proof. intro P. apply Permutation_length, filter_perm, P. Qed.
Lemma count_zero t l : count t l = O <-> forall b, In b l -> snd b <> t.
Proof.
  unfold count. induction l as [|a l IH]; cbn; [split; [intros _ ? []|reflexivity]|]. destruct (same_target (snd a) t) eqn:E.
  - split; [discriminate|]. intro H. exfalso. apply (H a); [left; reflexivity|]. now apply same_target_eq.
  - rewrite IH. split; intros H b; [intros [<-|I]|]; auto. intros Q. apply same_target_eq in Q. congruence.
Qed.
Definition other (t : target) (b : text * target) : bool := negb (same_target (snd b) t).
Lemma other_all t l : count t l = O -> filter (other t) l = l.
Proof.
  rewrite count_zero. induction l as [|a l IH]; intro H; [reflexivity|]. cbn. unfold other at 1.
  destruct (same_target (snd a) t) eqn:E; [apply same_target_eq in E; exfalso; apply (H a); [left|]; auto|]. cbn. rewrite IH; [reflexivity|]. intros; apply H; right; assumption.
Qed.
Lemma remove_first_raw p n u : (count (p, Some n) (map (named p) u) <= 1)%nat ->
  map (named p) (remove_first n u) = filter (other (p, Some n)) (map (named p) u).
Proof.
  induction u as [|m u IH]; intro C; [reflexivity|]. cbn [remove_first map filter] in *.
  unfold count in C. cbn [filter] in C. unfold other at 1.
  assert (same_target (snd (named p m)) (p, Some n) = text_eqb (member_name m) n) as E.
  { unfold same_target, named. cbn. now rewrite text_eqb_refl. }
  rewrite E in *. destruct (text_eqb (member_name m) n); cbn [negb].
  - cbn [Datatypes.length] in C. rewrite other_all; [reflexivity|]. unfold count. lia.
  - cbn [map]. rewrite IH; [reflexivity|exact C].
Qed.
Lemma get_mut_raw p n l : NoDup (map fst l) -> Forall (fun x => path (snd x) = fst x) l ->
  (count (p, Some n) (flat_map (fun x => raw_import (snd x)) l) <= 1)%nat ->
  flat_map (fun x => raw_import (snd x)) (get_mut p (fun i => Import (path i) (aliases i) (remove_first n (unqualified i))) l)
  = filter (other (p, Some n)) (flat_map (fun x => raw_import (snd x)) l).
Proof.
  assert (forall i, path i <> p -> count (p, Some n) (raw_import i) = O) as Z.
  { intros i N. apply count_zero. unfold raw_import. intros b I E. apply in_app_or in I as [I|I]; apply in_map_iff in I as (x & <- & _); cbn in E; congruence. }
  induction l as [|(q & i) l IH]; intros N F C; [reflexivity|]. cbn [flat_map snd] in *. rewrite count_app in C. rewrite filter_app.
  inversion N as [|? ? N1 N2]. subst. inversion F as [|? ? F1 F2]. subst. cbn in F1. cbn [get_mut]. destruct (text_eqb q p) eqn:E.
  - apply text_eqb_eq in E. subst q. cbn [flat_map snd]. f_equal.
    + unfold raw_import in *. cbn [path aliases unqualified]. rewrite E in *. rewrite filter_app. rewrite count_app in C. f_equal.
      * symmetry. apply other_all, count_zero. intros b I Q. apply in_map_iff in I as (x & <- & _). discriminate.
      * apply remove_first_raw. lia.
    + symmetry. apply other_all, count_zero. intros b I Q. apply in_flat_map in I as ((r & j) & I & B).
      rewrite Forall_forall in F2. specialize (F2 _ I). cbn in F2, B. unfold raw_import in B.
      assert (r = p) as ->.
      { rewrite <- F2. apply in_app_or in B as [B|B]; apply in_map_iff in B as (x & <- & _); cbn in Q; congruence. }
      apply N1. rewrite E. apply in_map_iff. exists (p, j). auto.
  - cbn [flat_map snd]. f_equal; [|apply IH; auto; lia]. symmetry. apply other_all, Z. apply text_eqb_neq in E. congruence.
Qed.
Lemma get_mut_kept p f l : (forall i, path (f i) = path i) -> map fst (get_mut p f l) = map fst l
  /\ (Forall (fun x => path (snd x) = fst x) l -> Forall (fun x => path (snd x) = fst x) (get_mut p f l)).
Proof.
  intro H. induction l as [|(q & i) l (IH & IF)]; cbn [get_mut]; [split; auto|]. destruct (text_eqb q p).
  - split; [reflexivity|]. intro F. inversion F. constructor; [cbn in *; rewrite H; assumption|assumption].
  - split; [cbn; now rewrite IH|]. intro F. inversion F. constructor; auto.
Qed.
Definition left_out (u : list (text * text)) (b : text * target) : bool := existsb (fun '(p, n) => same_target (snd b) (p, Some n)) u.
Lemma filter_filter {A} (f g : A -> bool) l : filter g (filter f l) = filter (fun a => f a && g a) l.
Proof. induction l as [|a l IH]; [reflexivity|]. cbn. destruct (f a); cbn; rewrite IH; reflexivity. Qed.
Lemma count_filter t f l : (count t (filter f l) <= count t l)%nat.
Proof. unfold count. induction l as [|a l IH]; [apply le_n|]. cbn. destruct (f a); cbn; destruct (same_target (snd a) t); cbn; lia. Qed.
Lemma filter_unused_raw u : forall i, kept i -> (forall p n, In (p, n) u -> (count (p, Some n) (raw i) <= 1)%nat) ->
  kept (filter_unused_variants i u) /\ raw (filter_unused_variants i u) = filter (fun b => negb (left_out u b)) (raw i).
Proof.
  induction u as [|(p & n) u IH]; intros i K C; unfold filter_unused_variants; cbn [fold_left].
  - split; [exact K|]. cbn. induction (raw i) as [|a l I]; [reflexivity|]. cbn. now rewrite <- I.
  - set (i' := Imports _ _). destruct K as [K1 K2].
    destruct (get_mut_kept p (fun i => Import (path i) (aliases i) (remove_first n (unqualified i))) (modules i)) as (M & F); [reflexivity|].
    assert (kept i') as K' by (split; cbn; [rewrite M; exact K1|apply F, K2]).
    assert (raw i' = filter (other (p, Some n)) (raw i)) as R by (apply get_mut_raw; auto; apply C; left; reflexivity).
    destruct (IH i' K') as (A & B). { intros q k I. rewrite R. rewrite count_filter. apply C. right. exact I. }
    split; [exact A|]. etransitivity; [exact B|]. rewrite R, filter_filter. apply filter_ext. intro b. unfold other. cbn. now rewrite negb_orb.
Qed.

(** ** Statements *)
Lemma set_of_same l : NoDup l -> set_of l = l.
Proof.
  induction 1 as [|x l N D IH]; [reflexivity|]. cbn. destruct (existsb (text_eqb x) l) eqn:E; [|now rewrite IH].
  apply existsb_exists in E as (y & I & E). apply text_eqb_eq in E. subst. contradiction.
Qed.
Lemma set_of_In l x : In x (set_of l) <-> In x l.
Proof.
  induction l as [|y l IH]; [reflexivity|]. cbn. destruct (existsb (text_eqb y) l) eqn:E; cbn; rewrite IH; [|reflexivity].
  apply existsb_exists in E as (z & I & E). apply text_eqb_eq in E. subst. split; [auto|intros [<-|H]; auto].
Qed.
Lemma set_of_NoDup l : NoDup (set_of l).
Proof.
  induction l as [|y l IH]; [constructor|]. cbn. destruct (existsb (text_eqb y) l) eqn:E; [exact IH|]. constructor; [|exact IH].
  rewrite set_of_In. intro I. assert (existsb (text_eqb y) l = true); [|congruence]. apply existsb_exists. exists y. split; [exact I|apply text_eqb_refl].
Qed.
Lemma bindings_app a b : bindings (a ++ b) = bindings a ++ bindings b.
Proof. apply flat_map_app. Qed.
Lemma flat_map_flat_map {A B C} (f : A -> list B) (g : B -> list C) l : flat_map g (flat_map f l) = flat_map (fun a => flat_map g (f a)) l.
Proof. induction l as [|a l IH]; [reflexivity|]. cbn. now rewrite flat_map_app, IH. Qed.
Lemma NoDup_app_parts {A} (l k : list A) : NoDup (l ++ k) -> NoDup l /\ NoDup k.
Proof.
  induction l as [|a l IH]; cbn; intro N; [split; [constructor|exact N]|]. inversion N as [|? ? N1 N2]. subst. destruct (IH N2). split; [|assumption].
  constructor; [|assumption]. intro. apply N1, in_or_app. auto.
Qed.
Lemma import_into_doc_raw i : NoDup (map fst (raw_import i)) -> Permutation (bindings (import_into_doc i)) (raw_import i).
Proof.
  intro N. unfold import_into_doc, raw_import in *. rewrite bindings_app. rewrite map_app, map_map in N. apply NoDup_app_parts in N as [N _].
  cbn in N. rewrite map_id in N. apply Permutation_app.
  - unfold sorted. rewrite set_of_same by exact N. rewrite (sorted_by_perm (fun s => s) (aliases i)) at 2.
    generalize (sorted_by (fun s : text => s) (aliases i)). intro l. induction l as [|a l IH]; [reflexivity|]. cbn. constructor. exact IH.
  - destruct (unqualified i) as [|x l]; [reflexivity|]. cbn. rewrite app_nil_r. reflexivity.
Qed.
Lemma into_doc_raw i : NoDup (map fst (raw i)) -> Permutation (bindings (into_doc i)) (raw i).
Proof.
  intro N. unfold into_doc. rewrite bindings_app.
  assert (bindings (match exports i with [] => [] | l => [Export (sorted l)] end) = []) as -> by (destruct (exports i); reflexivity).
  rewrite app_nil_r. unfold bindings. rewrite flat_map_flat_map.
  rewrite <- (sorted_by_perm path (map snd (modules i))). unfold raw in *. clear - N.
  induction (modules i) as [|(q & x) l IH]; [reflexivity|]. cbn [map flat_map snd] in *. rewrite map_app in N. apply NoDup_app_parts in N as [N1 N2].
  apply Permutation_app; [apply import_into_doc_raw, N1|apply IH, N2].
Qed.
Lemma into_doc_exports i : exported (into_doc i) = sorted (exports i).
Proof.
  unfold into_doc, exported. rewrite flat_map_app. match goal with |- ?a ++ _ = _ => assert (a = []) as -> end.
  - induction (sorted_by path (map snd (modules i))) as [|x l IH]; [reflexivity|]. cbn. rewrite flat_map_app, IH, app_nil_r. unfold import_into_doc.
    rewrite flat_map_app. induction (sorted (aliases x)) as [|a k IK]; [|exact IK]. destruct (unqualified x); reflexivity.
  - destruct (exports i) as [|e l]; [reflexivity|]. cbn [flat_map app]. apply app_nil_r.
Qed.
