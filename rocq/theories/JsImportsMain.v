(** The theorems about imports of generated JavaScript, put together. *)
From Coq Require Import String Arith NArith List Bool Permutation Lia.
From Coq Require Import ZifyBool ZifyNat ZifyN.
From Verif Require Import Text TextProofs JsScope ManifestText ManifestTextSpec ManifestTextProofs JsImports JsImportsSpec JsImportsProofs.
Import ListNotations.
Local Open Scope list_scope.
Local Open Scope N_scope.

(** ** Lists *)
Lemma NoDup_together {A} (l k : list A) : NoDup l -> NoDup k -> (forall x, In x l -> ~ In x k) -> NoDup (l ++ k).
Proof.
  induction 1 as [|a l N D IH]; intros K X; [exact K|]. cbn. constructor.
  - rewrite in_app_iff. intros [I|I]; [contradiction|]. apply (X a); [left; reflexivity|exact I].
  - apply IH; [exact K|]. intros x I. apply X. right. exact I.
Qed.
Lemma NoDup_image {A B} (f : A -> B) l a b : NoDup (map f l) -> In a l -> In b l -> f a = f b -> a = b.
Proof.
  induction l as [|x l IH]; cbn; [contradiction|]. intro N. inversion N as [|? ? N1 N2]. subst. intros [->|I] [->|J] E; auto.
  - exfalso. apply N1. rewrite E. apply in_map, J.
  - exfalso. apply N1. rewrite <- E. apply in_map, I.
Qed.
Lemma NoDup_map_inj {A B} (f : A -> B) l : NoDup l -> (forall a b, In a l -> In b l -> f a = f b -> a = b) -> NoDup (map f l).
Proof.
  induction 1 as [|x l N D IH]; intro H; [constructor|]. cbn. constructor.
  - intro I. apply in_map_iff in I as (y & E & I). apply N. rewrite (H x y); auto; [left|right]; auto.
  - apply IH. intros a b I J. apply H; right; assumption.
Qed.
Lemma NoDup_filtered {A B} (f : A -> B) p l : NoDup (map f l) -> NoDup (map f (filter p l)).
Proof.
  induction l as [|x l IH]; cbn; [constructor|]. intro N. inversion N as [|? ? N1 N2]. subst. destruct (p x); [|auto]. cbn. constructor; [|auto].
  intro I. apply N1. apply in_map_iff in I as (y & E & I). apply filter_In in I as [I _]. rewrite <- E. apply in_map, I.
Qed.
Lemma flat_map_both {A B} (f g : A -> list B) l : Permutation (flat_map (fun a => f a ++ g a) l) (flat_map f l ++ flat_map g l).
Proof.
  induction l as [|a l IH]; [reflexivity|]. cbn. rewrite IH. rewrite <- !app_assoc. apply Permutation_app_head. rewrite !app_assoc.
  apply Permutation_app_tail. apply Permutation_app_comm.
Qed.
Lemma flat_map_single {A B} (f : A -> B) l : flat_map (fun a => [f a]) l = map f l.
Proof. induction l as [|a l IH]; [reflexivity|]. cbn. now rewrite IH. Qed.
Lemma count_one {A K} (key : A -> K) (k : K) (f : A -> text * target) t l :
  NoDup (map key l) -> (forall a, In a l -> snd (f a) = t -> key a = k) -> (count t (map f l) <= 1)%nat.
Proof.
  induction l as [|a l IH]; intros N H; [apply Nat.le_0_l|]. inversion N as [|? ? N1 N2]. subst. unfold count. cbn [map filter].
  destruct (same_target (snd (f a)) t) eqn:E.
  - apply same_target_eq in E. assert (count t (map f l) = O) as Z.
    { apply count_zero. intros b I Q. apply in_map_iff in I as (x & <- & I). apply N1.
      rewrite (H a), <- (H x); auto; [apply in_map, I|right; exact I|left; reflexivity]. }
    unfold count in Z. cbn [Datatypes.length]. lia.
  - apply IH; [exact N2|]. intros. apply H; [right|]; assumption.
Qed.

(** ** Names *)
Lemma upper_name_chars s : upper_name s -> s <> [] /\ forall c, In c s -> lower c \/ upper c \/ digit_ c.
Proof. intros (c & r & -> & L & F). split; [discriminate|]. intros x [<-|I]; auto. rewrite Forall_forall in F. auto. Qed.
Lemma value_name_dollar s : value_name s -> ~ In 36 s.
Proof.
  intros [H|H] I; [apply lower_name_chars in H as [_ H]|apply upper_name_chars in H as [_ H]]; specialize (H _ I); unfold lower, upper, digit_ in H; lia.
Qed.
Lemma js_name_escaped n j : js_name n j <-> j = maybe_escape_identifier n.
Proof. unfold js_name, maybe_escape_identifier, escape_identifier. destruct (is_usable_js_identifier n); intuition congruence. Qed.
Lemma escape_cases n : maybe_escape_identifier n = n \/ maybe_escape_identifier n = n ++ [36].
Proof. unfold maybe_escape_identifier, escape_identifier. destruct (is_usable_js_identifier n); auto. Qed.
Lemma escape_same n k : value_name n -> ~ In 36 k -> maybe_escape_identifier n = k -> n = k.
Proof. intros V K E. destruct (escape_cases n) as [C|C]; [congruence|]. exfalso. apply K. rewrite <- E, C. apply in_or_app. right. left. reflexivity. Qed.
Lemma escape_inj n k : value_name n -> value_name k -> maybe_escape_identifier n = maybe_escape_identifier k -> n = k.
Proof.
  intros N K E. pose proof (value_name_dollar _ N). pose proof (value_name_dollar _ K).
  destruct (escape_cases n) as [C|C], (escape_cases k) as [D|D]; rewrite C, D in E.
  - exact E.
  - exfalso. apply H. rewrite E. apply in_or_app. right. left. reflexivity.
  - exfalso. apply H0. rewrite <- E. apply in_or_app. right. left. reflexivity.
  - now apply app_inv_tail in E.
Qed.
Lemma upper_usable n : upper_name n -> maybe_escape_identifier n = n.
Proof.
  intros (c & r & -> & U & _). unfold maybe_escape_identifier. destruct (is_usable_js_identifier (c :: r)) eqn:E; [reflexivity|].
  exfalso. unfold is_usable_js_identifier in E. apply negb_false_iff, existsb_exists in E as (x & I & E). apply text_eqb_eq in E. subst x.
  assert (forallb (fun s => match s with c :: _ => 90 <? c | [] => true end) reserved = true) as F by (vm_compute; reflexivity).
  rewrite forallb_forall in F. specialize (F _ I). unfold upper in U. cbn in F. lia.
Qed.

Fixpoint dollar_inside (s : text) : bool :=
  match s with [] => false | c :: r => (c =? 36) && match r with [] => false | _ => true end || dollar_inside r end.
Definition lowerb (c : N) := (97 <=? c) && (c <=? 122).
Definition upperb (c : N) := (65 <=? c) && (c <=? 90).
Definition shape (s : text) : nat :=
  match s with
  | [] => 9%nat
  | c :: r =>
      if c =? 36 then
        match r with
        | [] => 9%nat
        | d :: r => if lowerb d then if existsb (N.eqb 36) r then 3%nat else 1%nat else 2%nat
        end
      else if dollar_inside r then 4%nat
      else if lowerb c && existsb upperb r then 5%nat else 0%nat
  end.
Lemma not_inside s : ~ In 36 s -> dollar_inside s = false /\ dollar_inside (s ++ [36]) = false.
Proof.
  induction s as [|c s IH]; intro N; [split; reflexivity|]. destruct IH as [A B]; [intro; apply N; right; assumption|]. cbn.
  assert (c =? 36 = false) as -> by (apply N.eqb_neq; intros ->; apply N; left; reflexivity). cbn. auto.
Qed.
Lemma inside a b : b <> [] -> dollar_inside (a ++ 36 :: b) = true.
Proof. intro N. induction a as [|c a IH]; [destruct b; [congruence|reflexivity]|]. cbn. rewrite IH. apply orb_true_r. Qed.
Lemma shape_value n : value_name n -> shape (maybe_escape_identifier n) = O.
Proof.
  intro V. pose proof (value_name_dollar _ V) as D.
  assert (exists c r, n = c :: r /\ (lowerb c = false \/ forall x, In x r -> upperb x = false)) as (c & r & -> & X).
  { destruct V as [(c & r & -> & L & F)|(c & r & -> & L & F)]; exists c, r; (split; [reflexivity|]).
    - right. intros x I. rewrite Forall_forall in F. specialize (F x I). unfold upperb, lower, digit_ in *. lia.
    - left. unfold upper, lowerb in *. lia. }
  assert (forall r', (r' = r \/ r' = r ++ [36]) -> shape (c :: r') = O) as H.
  { intros r' R. cbn. assert (c =? 36 = false) as -> by (apply N.eqb_neq; intros ->; apply D; left; reflexivity).
    destruct (not_inside r) as [A B]; [intro; apply D; right; assumption|].
    assert (dollar_inside r' = false) as -> by (destruct R; subst; assumption).
    destruct (lowerb c && existsb upperb r') eqn:E; [|reflexivity]. apply andb_prop in E as [E1 E2]. destruct X as [X|X]; [congruence|].
    apply existsb_exists in E2 as (x & I & E2). destruct R as [-> | ->]; [rewrite X in E2; [discriminate|exact I]|].
    apply in_app_or in I as [I|[<-|[]]]; [rewrite X in E2; [discriminate|exact I]|discriminate E2]. }
  destruct (escape_cases (c :: r)) as [C|C]; rewrite C; [|cbn [app]]; apply H; auto.
Qed.
Lemma shape_module s : lower_name s -> shape (str "$" ++ s) = 1%nat.
Proof.
  intros H. pose proof (value_name_dollar s (or_introl H)) as D. destruct H as (c & r & -> & L & F).
  change (str "$" ++ c :: r) with (36 :: c :: r). cbn [shape N.eqb]. cbn. assert (lowerb c = true) as -> by (unfold lower, lowerb in *; lia).
  destruct (existsb (N.eqb 36) r) eqn:E; [|reflexivity]. apply existsb_exists in E as (x & I & E). apply N.eqb_eq in E. subst. exfalso. apply D. right. exact I.
Qed.
Lemma shape_constant t n : upper_name t -> shape (constant t n) = 4%nat.
Proof.
  intros (c & r & -> & L & _). unfold constant. change (str "$" ++ n ++ str "$const") with (36 :: n ++ str "$const"). cbn [app shape].
  assert (c =? 36 = false) as -> by (unfold upper in L; lia). rewrite inside; [reflexivity|]. destruct n; discriminate.
Qed.
Definition prelude_name (u : text * option text) : text := match snd u with Some a => a | None => fst u end.
Lemma shape_prelude u : In u prelude_table -> (shape (prelude_name u) = 2 \/ shape (prelude_name u) = 5)%nat
  \/ prelude_name u = fst u /\ In (fst u) [str "Ok"; str "Error"].
Proof.
  intro I. assert (forallb (fun u => (shape (prelude_name u) =? 2)%nat || (shape (prelude_name u) =? 5)%nat
    || text_eqb (prelude_name u) (fst u) && existsb (text_eqb (fst u)) [str "Ok"; str "Error"]) prelude_table = true) as F by (vm_compute; reflexivity).
  rewrite forallb_forall in F. specialize (F _ I). apply orb_prop in F as [F|F]; [left; lia|]. right. apply andb_prop in F as [E F].
  apply text_eqb_eq in E. split; [exact E|]. apply existsb_exists in F as (x & X & F). apply text_eqb_eq in F. now rewrite F.
Qed.
Fixpoint distinct (l : list text) : bool := match l with [] => true | x :: l => negb (existsb (text_eqb x) l) && distinct l end.
Lemma distinct_NoDup l : distinct l = true -> NoDup l.
Proof.
  induction l as [|x l IH]; [constructor|]. cbn. intro E. apply andb_prop in E as [E F]. constructor; [|auto]. intro I.
  apply negb_true_iff in E. assert (existsb (text_eqb x) l = true); [|congruence]. apply existsb_exists. exists x. split; [exact I|apply text_eqb_refl].
Qed.
Lemma prelude_names_distinct : NoDup (map prelude_name prelude_table).
Proof. apply distinct_NoDup. vm_compute. reflexivity. Qed.
Lemma constant_inj t n t' n' : upper_name t -> upper_name t' -> upper_name n -> upper_name n' -> constant t n = constant t' n' -> t = t' /\ n = n'.
Proof.
  intros T T' N N' E. unfold constant in E.
  assert (forall a b c d, ~ In 36 a -> ~ In 36 b -> a ++ 36 :: c = b ++ 36 :: d -> a = b /\ c = d) as cut.
  { induction a as [|x a IH]; intros [|y b] c d A B Q; cbn in *.
    - injection Q. auto.
    - injection Q as <- _. tauto.
    - injection Q as -> _. tauto.
    - injection Q as -> Q. destruct (IH b c d) as [-> ->]; auto. }
  pose proof (value_name_dollar _ (or_intror T)). pose proof (value_name_dollar _ (or_intror T')).
  pose proof (value_name_dollar _ (or_intror N)). pose proof (value_name_dollar _ (or_intror N')).
  change (str "$" ++ n ++ str "$const") with (36 :: (n ++ 36 :: str "const")) in E.
  change (str "$" ++ n' ++ str "$const") with (36 :: (n' ++ 36 :: str "const")) in E.
  apply cut in E as [-> E]; auto. apply cut in E as [-> _]; auto.
Qed.

Definition lower_nameb (s : text) : bool :=
  match s with c :: r => lowerb c && forallb (fun c => lowerb c || (48 <=? c) && (c <=? 57) || (c =? 95)) r | [] => false end.
Lemma lower_nameb_ok s : lower_nameb s = true -> lower_name s.
Proof.
  destruct s as [|c r]; [discriminate|]. cbn. intro E. apply andb_prop in E as [E F]. exists c, r. split; [reflexivity|]. unfold lower, lowerb, digit_ in *.
  split; [lia|]. rewrite forallb_forall in F. apply Forall_forall. intros x I. specialize (F x I). lia.
Qed.
Definition upper_nameb (s : text) : bool :=
  match s with c :: r => upperb c && forallb (fun c => lowerb c || upperb c || (48 <=? c) && (c <=? 57)) r | [] => false end.
Lemma upper_nameb_ok s : upper_nameb s = true -> upper_name s.
Proof.
  destruct s as [|c r]; [discriminate|]. cbn. intro E. apply andb_prop in E as [E F]. exists c, r. split; [reflexivity|]. unfold upper, upperb, lower, lowerb, digit_ in *.
  split; [lia|]. rewrite forallb_forall in F. apply Forall_forall. intros x I. specialize (F x I). lia.
Qed.

(** ** Segments *)
Lemma pieces_slash r s : pieces (r ++ 47 :: s) = pieces r ++ pieces s.
Proof.
  induction r as [|c r IH]; [reflexivity|]. cbn. destruct (c =? 47); [now rewrite IH|]. rewrite IH.
  destruct (pieces r) eqn:E; [|reflexivity]. exfalso. clear - E. destruct r as [|c r]; [discriminate|]. cbn in E. destruct (c =? 47); [discriminate|]. destruct (pieces r); discriminate.
Qed.
Lemma last_segment_pieces m s : module_name m -> (last_segment m s <-> s = last (pieces m) []).
Proof.
  intro M. destruct (module_pieces _ M) as (l & t & _ & T & P & _ & _ & _ & K). rewrite P, last_last. split.
  - intros (L & [->|(r & ->)]).
    + rewrite pieces_alone in P by (apply lower_name_slash, L). destruct l as [|? [|]]; cbn in P; injection P; auto; discriminate.
    + rewrite pieces_slash, (pieces_alone s) in P by (apply lower_name_slash, L). apply app_inj_tail in P as [_ P]. exact P.
  - intros ->. split; [exact T|]. destruct K as [(_ & ->)|(q & ->)]; [left; reflexivity|right; eauto].
Qed.

(** ** Constants *)
Lemma variant_eqb_eq v w : variant_eqb v w = true <-> v = w.
Proof.
  destruct v, w. unfold variant_eqb. cbn. rewrite !andb_true_iff, !text_eqb_eq. split; [intros (((-> & ->) & ->) & ->); reflexivity|intro E; injection E; auto].
Qed.
Definition constant_alias (v : variant) (u : text) : option text := if text_eqb u (v_name v) then None else Some (constant (v_type v) u).
Lemma insert_constant_spec v a l : NoDup (map fst l) ->
  NoDup (map fst (insert_constant v a l)) /\ forall w b, In (w, b) (insert_constant v a l) <-> (w = v /\ b = a) \/ (w <> v /\ In (w, b) l).
Proof.
  induction l as [|(x & c) l IH]; intro N.
  - cbn. split; [constructor; [intros []|constructor]|]. intros w b. split; [intros [E|[]]; injection E; auto|intros [(-> & ->)|(_ & [])]; auto].
  - inversion N as [|? ? N1 N2]. subst. cbn [insert_constant]. destruct (variant_eqb x v) eqn:E.
    + apply variant_eqb_eq in E. subst x. split; [exact N|]. intros w b. cbn. split.
      * intros [Q|I]; [injection Q; auto|]. right. split; [|auto]. intros ->. apply N1. apply in_map_iff. exists (v, b). auto.
      * intros [(-> & ->)|(W & [Q|I])]; auto. injection Q as -> _. contradiction.
    + assert (x <> v) as X by (intros ->; rewrite (proj2 (variant_eqb_eq v v) eq_refl) in E; discriminate).
      destruct (IH N2) as (A & B). split.
      * cbn. constructor; [|exact A]. intro I. apply in_map_iff in I as ((w & b) & <- & I). apply B in I as [(-> & _)|(_ & I)]; [cbn in X; congruence|].
        apply N1. apply in_map_iff. exists (w, b). auto.
      * intros w b. cbn. rewrite B. split.
        -- intros [Q|[Q|(W & I)]]; auto. injection Q as -> ->. auto.
        -- intros [Q|(W & [Q|I])]; auto.
Qed.
Lemma constants_spec l : forall k, NoDup (map fst k) ->
  let r := fold_left (fun l '(v, n) => insert_constant v (if text_eqb n (v_name v) then None else Some (constant (v_type v) n)) l) l k in
  NoDup (map fst r)
  /\ (forall v a, In (v, a) r -> In (v, a) k \/ exists u, In (v, u) l /\ a = constant_alias v u)
  /\ (forall v u, In (v, u) l -> exists a, In (v, a) r)
  /\ (forall v a, In (v, a) k -> exists b, In (v, b) r).
Proof.
  induction l as [|(v & u) l IH]; intros k N; cbn [fold_left].
  - cbn. split; [exact N|]. split; [auto|]. split; [intros ? ? []|eauto].
  - fold (constant_alias v u). destruct (insert_constant_spec v (constant_alias v u) k N) as (N' & S). destruct (IH _ N') as (A & B & C & D).
    cbv zeta. split; [exact A|]. split; [|split].
    + intros w a I. apply B in I as [I|(y & I & ->)].
      * apply S in I as [(-> & ->)|(_ & I)]; [|auto]. right. exists u. split; [left|]; reflexivity.
      * right. exists y. split; [right; exact I|reflexivity].
    + intros w y [Q|I]; [|eapply C; exact I]. injection Q as -> ->. apply (D w (constant_alias w y)). apply S. auto.
    + intros w a I. destruct (variant_eqb w v) eqn:E.
      * apply variant_eqb_eq in E. subst w. apply (D v (constant_alias v u)). apply S. auto.
      * apply (D w a). apply S. right. split; [|exact I]. intros ->. rewrite (proj2 (variant_eqb_eq v v) eq_refl) in E. discriminate.
Qed.

(** ** Everything that is registered *)
Lemma used_table_In m u : In u (used_table m) <-> In u prelude_table /\ In (fst u) (prelude_used m).
Proof.
  unfold used_table. generalize prelude_table. intro l. rewrite filter_In, existsb_exists. split.
  - intros (I & y & Y & E). apply text_eqb_eq in E. rewrite E. auto.
  - intros (I & J). split; [exact I|]. exists (fst u). split; [exact J|apply text_eqb_refl].
Qed.
Lemma used_table_distinct m : NoDup (map prelude_name (used_table m)).
Proof. unfold used_table. generalize prelude_names_distinct. generalize prelude_table. intros l N. apply NoDup_filtered, N. Qed.
Lemma prelude_parts_same : map (fun u => (prelude_name u, fst u)) prelude_table = prelude_parts.
Proof. vm_compute. reflexivity. Qed.
Lemma prelude_parts_In j n : In (j, n) prelude_parts <-> exists a, In (n, a) prelude_table /\ prelude_name (n, a) = j.
Proof.
  rewrite <- prelude_parts_same. generalize prelude_table. intro l. rewrite in_map_iff. split.
  - intros ((x & a) & E & I). injection E as <- <-. exists a. auto.
  - intros (a & I & E). exists (n, a). cbn. rewrite <- E. auto.
Qed.
Local Opaque used_table.
Definition all_values (m : gleam_module) : list (gleam_import * (text * option text)) := flat_map (fun g => map (pair g) (values g)) (imported m).
Definition binding_of_value (m : gleam_module) (x : gleam_import * (text * option text)) := value_binding m (fst x) (snd x).
Definition registered (m : gleam_module) (cs : list (variant * option text)) : list (text * target) :=
  flat_map (module_binding m) (imported m)
  ++ (map (binding_of_value m) (all_values m) ++ map external_binding (externals m))
  ++ map (prelude_binding m) (used_table m) ++ map (constant_binding m) cs.
Definition dict_binding (m : gleam_module) : list (text * target) :=
  if echo_with_stdlib m then [(str "$stdlib$dict", (import_path m (str "gleam_stdlib") (str "gleam/dict"), None))] else [].

Lemma flat_map_values (m : gleam_module) :
  flat_map (fun g => map (value_binding m g) (values g)) (imported m) = map (binding_of_value m) (all_values m).
Proof.
  unfold all_values. induction (imported m) as [|g l IH]; [reflexivity|]. cbn. rewrite map_app, map_map, IH. reflexivity.
Qed.
Lemma kept_none : kept (Imports [] []).
Proof. split; cbn; constructor. Qed.

Section Compile.
  Context (m : gleam_module) (ok : checked m) (cs : list (variant * option text)) (order : Permutation cs (variant_constants_used m)).

  Definition before_filter := fold_left (register_constant m) cs (fold_left (register_prelude_usage m) (used_table m) (collect_imports m)).
  Lemma before_filter_raw : kept before_filter /\ Permutation (raw before_filter) (registered m cs).
  Proof.
    unfold before_filter, collect_imports.
    destruct (fold_register _ _ (register_import_raw m) (imported m) _ kept_none) as (K1 & R1).
    destruct (fold_register _ (fun e => [external_binding e]) register_external_raw (externals m) _ K1) as (K2 & R2).
    destruct (fold_register _ (fun e => [prelude_binding m e]) (register_prelude_raw m) (used_table m) _ K2) as (K3 & R3).
    destruct (fold_register _ (fun e => [constant_binding m e]) (register_constant_raw m) cs _ K3) as (K4 & R4).
    split; [exact K4|]. rewrite R4, R3, R2, R1, !flat_map_single. cbn [raw modules flat_map app]. unfold import_bindings.
    rewrite flat_map_both, flat_map_values. unfold registered. rewrite <- !app_assoc. reflexivity.
  Qed.

  Lemma import_ok g : In g (imported m) -> (from_package g = [] /\ from_module g = str "gleam" \/ lower_name (from_package g)) /\ module_name (from_module g)
      /\ match as_name g with Some (Some n) => lower_name n | _ => True end
      /\ Forall (fun v => value_name (fst v) /\ match snd v with Some a => value_name a | None => True end) (values g).
  Proof. intro I. pose proof (ok_imports m ok) as F. rewrite Forall_forall in F. apply F, I. Qed.
  Lemma import_found g : In g (imported m) -> finds m (import_path m (from_package g) (from_module g)) (from_package g) (from_module g).
  Proof. intro I. destruct (import_ok g I) as (A & B & _). apply import_path_finds; [apply ok|apply ok| |exact B]. destruct A as [(A & _)|A]; auto. Qed.
  Lemma gleam_named : module_name (str "gleam").
  Proof. constructor. apply lower_nameb_ok. reflexivity. Qed.
  Lemma prelude_found : finds m (import_path m (package m) (str "gleam")) [] (str "gleam").
  Proof.
    assert (import_path m (package m) (str "gleam") = import_path m [] (str "gleam")) as ->.
    { unfold import_path. rewrite text_eqb_refl. change (text_eqb [] []) with true. now rewrite orb_true_r. }
    apply import_path_finds; [apply ok|apply ok|auto|apply gleam_named].
  Qed.
  Lemma dict_found : finds m (import_path m (str "gleam_stdlib") (str "gleam/dict")) (str "gleam_stdlib") (str "gleam/dict").
  Proof.
    apply import_path_finds; [apply ok|apply ok| |].
    - right. apply lower_nameb_ok. reflexivity.
    - change (str "gleam/dict") with (str "gleam" ++ 47 :: str "dict"). apply more_segments.
      + apply lower_nameb_ok. reflexivity.
      + constructor. apply lower_nameb_ok. reflexivity.
  Qed.

  Lemma all_values_In g x : In (g, x) (all_values m) <-> In g (imported m) /\ In x (values g).
  Proof.
    unfold all_values. rewrite in_flat_map. split.
    - intros (h & I & J). apply in_map_iff in J as (y & E & J). injection E as -> ->. auto.
    - intros (I & J). exists g. split; [exact I|]. apply in_map, J.
  Qed.
  Lemma value_ok g x : In g (imported m) -> In x (values g) -> value_name (fst x) /\ value_name (used_as x).
  Proof.
    intros I J. destruct (import_ok g I) as (_ & _ & _ & F). rewrite Forall_forall in F. destruct (F _ J) as (A & B).
    split; [exact A|]. unfold used_as. destruct (snd x); [exact B|exact A].
  Qed.
  Lemma constant_from v a : In (v, a) cs -> exists u, In (v, u) (constants_used m) /\ a = constant_alias v u.
  Proof.
    intro I. apply (Permutation_in _ order) in I. destruct (constants_spec (constants_used m) [] (NoDup_nil _)) as (_ & B & _).
    apply B in I as [[]|I]. exact I.
  Qed.
  Lemma constant_to v u : In (v, u) (constants_used m) -> exists a, In (v, a) cs.
  Proof.
    intro I. destruct (constants_spec (constants_used m) [] (NoDup_nil _)) as (_ & _ & C & _). destruct (C _ _ I) as (a & J). exists a.
    apply (Permutation_in _ (Permutation_sym order)). exact J.
  Qed.
  Lemma constants_once : NoDup (map fst cs).
  Proof.
    eapply Permutation_NoDup; [apply Permutation_map, Permutation_sym, order|].
    destruct (constants_spec (constants_used m) [] (NoDup_nil _)) as (A & _). exact A.
  Qed.
  (* The file of a module with a constant is that of no other module. *)
  Lemma same_file g v u : In g (imported m) -> In (v, u) (constants_used m) ->
    import_path m (from_package g) (from_module g) = import_path m (v_package v) (v_module v) -> from_package g = v_package v /\ from_module g = v_module v.
  Proof.
    intros I J E. destruct (ok_constants m ok _ _ J) as (_ & _ & _ & NG & h & x & H & X & P & M & _). rewrite <- P, <- M in *.
    pose proof (import_found g I) as F. pose proof (import_found h H) as F'. rewrite E in F.
    destruct (import_ok g I) as (A & B & _). destruct (import_ok h H) as (A' & B' & _).
    destruct (finds_same m _ _ _ _ _ B B' F F') as (O & Q). rewrite Q in A. split; [|exact Q].
    destruct A as [(_ & A)|A]; [contradiction|]. destruct A' as [(_ & A')|A']; [contradiction|].
    apply lower_name_not in A as (A & _). apply lower_name_not in A' as (A' & _). unfold owner in O. destruct (from_package g), (from_package h); congruence.
  Qed.
  Lemma unused_In p n : In (p, n) (unused m cs) <-> exists v a, In (v, a) cs /\ ~ In v (instanceof m) /\ p = import_path m (v_package v) (v_module v) /\ n = v_name v.
  Proof.
    unfold unused. rewrite in_map_iff. split.
    - intros ((v & a) & E & I). apply filter_In in I as (I & F). injection E as <- <-. exists v, a. split; [exact I|]. split; [|auto].
      intro J. apply negb_true_iff in F. assert (existsb (variant_eqb v) (instanceof m) = true); [|congruence]. apply existsb_exists. exists v. split; [exact J|now apply variant_eqb_eq].
    - intros (v & a & I & N & -> & ->). exists (v, a). split; [reflexivity|]. apply filter_In. split; [exact I|]. apply negb_true_iff.
      destruct (existsb (variant_eqb v) (instanceof m)) eqn:E; [|reflexivity]. apply existsb_exists in E as (w & J & E). apply variant_eqb_eq in E. subst. contradiction.
  Qed.
  Definition others := flat_map (module_binding m) (imported m) ++ map external_binding (externals m) ++ map (prelude_binding m) (used_table m) ++ map (constant_binding m) cs.
  Lemma others_stay p n : In (p, n) (unused m cs) -> forall b, In b others -> snd b <> (p, Some n).
  Proof.
    intros U b I E. apply unused_In in U as (v & a & J & _ & -> & ->). destruct (constant_from _ _ J) as (u & C & _).
    destruct (ok_constants m ok _ _ C) as (_ & VN & _ & NG & h & x & H & X & P & M & _).
    unfold others in I. rewrite !in_app_iff in I. destruct I as [I|[I|[I|I]]].
    - apply in_flat_map in I as (g & _ & I). unfold module_binding in I. destruct (as_name g) as [[k|]|]; cbn in I; intuition; subst b; discriminate.
    - apply in_map_iff in I as (e & <- & I). cbn in E. injection E as E _. apply (ok_files m ok e h I H). rewrite E, <- P, <- M. apply import_found, H.
    - apply in_map_iff in I as (e & <- & I). apply (f_equal fst) in E. unfold prelude_binding in E. cbn [fst snd] in E. apply NG. rewrite <- M in *. rewrite <- P in E.
      pose proof prelude_found as F. rewrite E in F. symmetry. destruct (import_ok h H) as (_ & B & _).
      destruct (finds_same m _ _ _ _ _ gleam_named B F (import_found h H)) as (_ & Q). exact Q.
    - apply in_map_iff in I as ((w & c) & <- & I). cbn in E. injection E as _ E. apply (value_name_dollar _ (or_intror VN)). rewrite <- E.
      unfold constant. apply in_or_app. right. left. reflexivity.
  Qed.
  Lemma value_stays_not g x p n : In g (imported m) -> In x (values g) -> snd (value_binding m g x) = (p, Some n) -> forall v a, In (v, a) cs ->
    p = import_path m (v_package v) (v_module v) -> n = v_name v -> from_package g = v_package v /\ from_module g = v_module v /\ fst x = v_name v.
  Proof.
    intros I J E v a C -> ->. destruct (constant_from _ _ C) as (u & K & _). cbn in E. injection E as E F.
    destruct (same_file g v u I K E) as (A & B). split; [exact A|]. split; [exact B|]. destruct (value_ok g x I J) as (V & _).
    destruct (ok_constants m ok _ _ K) as (_ & VN & _). apply (escape_same _ _ V (value_name_dollar _ (or_intror VN)) F).
  Qed.

  Context (once : imported_once m).
  Definition value_key (y : gleam_import * (text * option text)) := (from_package (fst y), from_module (fst y), fst (snd y)).
  Lemma values_once : NoDup (map value_key (all_values m)).
  Proof.
    unfold imported_once in once. replace (map value_key (all_values m)) with (flat_map (fun g => map (fun v => (from_package g, from_module g, fst v)) (values g)) (imported m)); [exact once|].
    clear. unfold all_values. induction (imported m) as [|g l IH]; [reflexivity|]. cbn. now rewrite map_app, map_map, IH.
  Qed.
  Lemma counted p n : In (p, n) (unused m cs) -> (count (p, Some n) (registered m cs) <= 1)%nat.
  Proof.
    intro U. assert (count (p, Some n) others = O) as Z by (apply count_zero; intros b I; apply (others_stay p n U b I)).
    unfold others in Z. rewrite !count_app in Z. unfold registered. rewrite !count_app.
    assert (count (p, Some n) (map (binding_of_value m) (all_values m)) <= 1)%nat; [|lia].
    pose proof U as U'. apply unused_In in U' as (v & a & J & _ & P & V).
    apply (count_one value_key (v_package v, v_module v, v_name v)); [apply values_once|].
    intros (g & x) I E. apply all_values_In in I as (I1 & I2). destruct (value_stays_not g x p n I1 I2 E v a J P V) as (A & B & C).
    unfold value_key. cbn. congruence.
  Qed.

  Definition remaining := filter (fun b => negb (left_out (unused m cs) b)) (registered m cs) ++ dict_binding m.
  Lemma compile_raw : Permutation (raw (compile_imports m cs)) remaining.
  Proof.
    destruct before_filter_raw as (K & R). unfold compile_imports. cbv zeta. fold before_filter.
    destruct (filter_unused_raw (unused m cs) before_filter K) as (K' & R').
    { intros p n I. rewrite (count_perm _ _ _ R). apply counted, I. }
    unfold remaining. rewrite <- (filter_perm _ _ _ R), <- R'. unfold register_dict, dict_binding. destruct (echo_with_stdlib m).
    - destruct (register_import_raw m _ (GleamImport (str "gleam_stdlib") (str "gleam/dict") (Some (Some (str "stdlib$dict"))) []) K') as (_ & P). exact P.
    - now rewrite app_nil_r.
  Qed.

  (** *** Names are bound once *)
  Lemma module_names_same : map fst (flat_map (module_binding m) (imported m)) = module_names m.
  Proof.
    unfold module_names. induction (imported m) as [|g l IH]; [reflexivity|]. cbn [flat_map]. rewrite map_app, IH. f_equal. unfold module_binding.
    destruct (as_name g) as [[n|]|]; reflexivity.
  Qed.
  Lemma value_names_same : map fst (map (binding_of_value m) (all_values m) ++ map external_binding (externals m)) = map maybe_escape_identifier (value_names m).
  Proof.
    unfold value_names. rewrite !map_app, !map_map. cbn. f_equal. unfold all_values. induction (imported m) as [|g l IH]; [reflexivity|].
    cbn. rewrite !map_app, !map_map, IH. reflexivity.
  Qed.
  Lemma value_names_ok n : In n (value_names m) -> value_name n.
  Proof.
    unfold value_names. rewrite in_app_iff. intros [I|I].
    - apply in_flat_map in I as (g & I & J). apply in_map_iff in J as (x & <- & J). apply (value_ok g x I J).
    - apply in_map_iff in I as (e & <- & I). left. pose proof (ok_externals m ok) as F. rewrite Forall_forall in F. apply F, I.
  Qed.
  Lemma module_names_shape n : In n (module_names m) -> shape n = 1%nat.
  Proof.
    unfold module_names. intro I. apply in_flat_map in I as (g & I & J). destruct (import_ok g I) as (_ & M & A & _).
    destruct (as_name g) as [[k|]|]; cbn in J; [destruct J as [<-|[]]|contradiction|destruct J as [<-|[]]].
    - apply shape_module, A.
    - change (36 :: last (pieces (from_module g)) []) with (str "$" ++ last (pieces (from_module g)) []). apply shape_module. apply (proj2 (last_segment_pieces _ _ M) eq_refl).
  Qed.
  Lemma constant_named v a : In (v, a) cs -> exists u, In (v, u) (constants_used m) /\ fst (constant_binding m (v, a)) = constant (v_type v) u.
  Proof.
    intro I. destruct (constant_from _ _ I) as (u & J & ->). exists u. split; [exact J|]. unfold constant_binding, constant_alias. cbn.
    destruct (text_eqb u (v_name v)) eqn:E; [|reflexivity]. apply text_eqb_eq in E. now subst.
  Qed.
  (* A name is used for one variant, *)
  Lemma used_for_one v u w y : In (v, u) (constants_used m) -> In (w, y) (constants_used m) -> u = y -> v = w.
  Proof.
    intros I J <-. destruct (ok_constants m ok _ _ I) as (_ & _ & _ & _ & g & x & G & X & P & M & N & U).
    destruct (ok_constants m ok _ _ J) as (_ & _ & _ & _ & h & z & H & Z & P' & M' & N' & U').
    assert ((g, x) = (h, z)) as E.
    { apply (NoDup_image (fun y => used_as (snd y)) (all_values m)); [|apply all_values_In; auto|apply all_values_In; auto|cbn; congruence].
      pose proof (ok_value_names m ok) as D. unfold value_names in D. apply NoDup_app_parts in D as (D & _).
      replace (map (fun y => used_as (snd y)) (all_values m)) with (flat_map (fun g => map used_as (values g)) (imported m)); [exact D|].
      clear. unfold all_values. induction (imported m) as [|g l IH]; [reflexivity|]. cbn. now rewrite map_app, map_map, IH. }
    injection E as <- <-. assert (v_type v = v_type w) by (eapply (ok_variants m ok); eauto; congruence). destruct v, w. cbn in *. congruence.
  Qed.
  (* and a variant has one name. *)
  Lemma one_name v u y : In (v, u) (constants_used m) -> In (v, y) (constants_used m) -> u = y.
  Proof.
    intros I J. destruct (ok_constants m ok _ _ I) as (_ & _ & _ & _ & g & x & G & X & P & M & N & U).
    destruct (ok_constants m ok _ _ J) as (_ & _ & _ & _ & h & z & H & Z & P' & M' & N' & U').
    assert ((g, x) = (h, z)) as E.
    { apply (NoDup_image value_key (all_values m)); [apply values_once|apply all_values_In; auto|apply all_values_In; auto|]. unfold value_key. cbn. congruence. }
    injection E as <- <-. congruence.
  Qed.
  Lemma constants_shape n : In n (map fst (map (constant_binding m) cs)) -> shape n = 4%nat.
  Proof.
    intro I. apply in_map_iff in I as (b & <- & I). apply in_map_iff in I as ((v & a) & <- & I). destruct (constant_named _ _ I) as (u & J & ->).
    apply shape_constant. apply (ok_constants m ok _ _ J).
  Qed.
  Lemma constants_distinct : NoDup (map fst (map (constant_binding m) cs)).
  Proof.
    rewrite map_map. apply NoDup_map_inj; [apply (NoDup_map_inv fst), constants_once|].
    intros (v & a) (w & b) I J E. destruct (constant_named _ _ I) as (u & U & Q). destruct (constant_named _ _ J) as (y & Y & Q').
    rewrite Q, Q' in E. apply constant_inj in E as (_ & E); try apply (ok_constants m ok _ _ U); try apply (ok_constants m ok _ _ Y).
    pose proof (used_for_one _ _ _ _ U Y E). subst w.
    apply (NoDup_image fst cs); auto using constants_once.
  Qed.
  Lemma prelude_shape n : In n (map fst (map (prelude_binding m) (used_table m))) ->
    (shape n = 2 \/ shape n = 5)%nat \/ shape n = O /\ ~ In n (map maybe_escape_identifier (value_names m)).
  Proof.
    intro I. apply in_map_iff in I as (b & <- & I). apply in_map_iff in I as (u & <- & I). apply used_table_In in I as (I & F).
    change (fst (prelude_binding m u)) with (prelude_name u). destruct (shape_prelude u I) as [S|(E & O)]; [left; exact S|].
    right. rewrite E. assert (upper_name (fst u)) as UP.
    { destruct O as [<-|[<-|[]]]; apply upper_nameb_ok; reflexivity. }
    split; [rewrite <- (upper_usable _ UP); apply shape_value; right; exact UP|].
    intro J. apply in_map_iff in J as (k & K & J). rewrite <- (upper_usable _ UP) in K. apply escape_inj in K; [|apply value_names_ok, J|right; exact UP].
    subst k. apply (ok_prelude m ok (fst u)); auto.
  Qed.
  Lemma registered_distinct : NoDup (map fst (registered m cs ++ dict_binding m)).
  Proof.
    unfold registered. rewrite !map_app, <- map_app, module_names_same, value_names_same.
    assert (D : forall n, In n (map fst (dict_binding m)) -> shape n = 3%nat).
    { intros n I. unfold dict_binding in I. destruct (echo_with_stdlib m); [|destruct I]. destruct I as [<-|[]]. vm_compute. reflexivity. }
    assert (V : forall n, In n (map maybe_escape_identifier (value_names m)) -> shape n = O).
    { intros n I. apply in_map_iff in I as (k & <- & I). apply shape_value, value_names_ok, I. }
    apply NoDup_together; [apply NoDup_together; [apply ok| |]| |].
    - apply NoDup_together; [|apply NoDup_together|].
      + apply NoDup_map_inj; [apply ok|]. intros a b I J. apply escape_inj; apply value_names_ok; assumption.
      + rewrite map_map. apply used_table_distinct.
      + apply constants_distinct.
      + intros n I J. apply constants_shape in J. apply prelude_shape in I as [I|(I & _)]; lia.
      + intros n I J. pose proof (V n I). apply in_app_or in J as [J|J]; [|apply constants_shape in J; lia].
        apply prelude_shape in J as [J|(_ & J)]; [lia|contradiction].
    - intros n I J. apply module_names_shape in I. rewrite !in_app_iff in J. destruct J as [J|[J|J]].
      + apply V in J. lia.
      + apply prelude_shape in J as [J|(J & _)]; lia.
      + apply constants_shape in J. lia.
    - unfold dict_binding. destruct (echo_with_stdlib m); cbn; repeat constructor. intros [].
    - intros n I J. apply D in J. rewrite !in_app_iff in I. destruct I as [I|[I|[I|I]]].
      + apply module_names_shape in I. lia.
      + apply V in I. lia.
      + apply prelude_shape in I as [I|(I & _)]; lia.
      + apply constants_shape in I. lia.
  Qed.
  Lemma remaining_distinct : NoDup (map fst remaining).
  Proof.
    unfold remaining. pose proof registered_distinct as N. rewrite map_app in *. apply NoDup_app_parts in N as P. destruct P as (A & B).
    apply NoDup_together; [apply NoDup_filtered, A|exact B|]. intros x I J.
    assert (In x (map fst (registered m cs))) as I'. { apply in_map_iff in I as (b & <- & I). apply filter_In in I as (I & _). apply in_map, I. }
    clear - N I' J. revert N I'. generalize (map fst (registered m cs)). intros l N I. induction l as [|a l IH]; [contradiction|]. cbn in N. inversion N as [|? ? N1 N2]. subst.
    destruct I as [->|I]; [apply N1, in_or_app; auto|auto].
  Qed.
  Lemma compiled : Permutation (bindings (compile m cs)) remaining.
  Proof.
    unfold compile. rewrite into_doc_raw; [apply compile_raw|]. eapply Permutation_NoDup; [apply Permutation_map, Permutation_sym, compile_raw|apply remaining_distinct].
  Qed.

  Lemma others_remain b : In b others -> In b remaining.
  Proof.
    intro I. unfold remaining. apply in_or_app. left. apply filter_In. split.
    - unfold others, registered in *. rewrite !in_app_iff in *. tauto.
    - apply negb_true_iff. destruct (left_out _ b) eqn:E; [|reflexivity]. apply existsb_exists in E as ((p & n) & U & E). apply same_target_eq in E.
      exfalso. apply (others_stay p n U b I E).
  Qed.
  Lemma value_remains g x : In g (imported m) -> In x (values g) ->
    (left_out (unused m cs) (value_binding m g x) = true <-> only_constant m (from_package g) (from_module g) (fst x)).
  Proof.
    intros I J. split.
    - intro E. apply existsb_exists in E as ((p & n) & U & E). apply same_target_eq in E. apply unused_In in U as (v & a & C & NI & P & V).
      destruct (value_stays_not g x p n I J E v a C P V) as (A & B & D). destruct (constant_from _ _ C) as (u & K & _).
      exists v, u. auto.
    - intros (v & u & C & A & B & D & NI). destruct (constant_to _ _ C) as (a & K). apply existsb_exists.
      exists (import_path m (v_package v) (v_module v), v_name v). split; [apply unused_In; exists v, a; auto|]. apply same_target_eq.
      cbn. rewrite A, B, <- D. f_equal. f_equal. apply upper_usable. apply (ok_constants m ok _ _ C).
  Qed.

  Lemma bound_declared n p e : In (n, (p, e)) remaining -> exists w, declares m n e w /\ at_place m p w.
  Proof.
    intro I. unfold remaining in I. apply in_app_or in I as [I|I].
    - apply filter_In in I as (I & F). unfold registered in I. rewrite !in_app_iff in I. destruct I as [I|[[I|I]|[I|I]]].
      + apply in_flat_map in I as (g & G & I). destruct (import_ok g G) as (_ & M & _). pose proof (import_found g G) as W. unfold module_binding in I.
        destruct (as_name g) as [[k|]|] eqn:A; [destruct I as [I|[]]|destruct I|destruct I as [I|[]]]; injection I as <- <- <-;
          exists (OfModule (from_package g) (from_module g)); (split; [|exact W]).
        * apply (a_renamed_module m g k G A).
        * apply (a_module m g _ G A). apply last_segment_pieces; auto.
      + apply in_map_iff in I as ((g & x) & E & I). apply all_values_In in I as (G & X). unfold binding_of_value in E. cbn [fst snd] in E.
        rewrite <- E in F. apply negb_true_iff in F. injection E as <- <- <-. exists (OfModule (from_package g) (from_module g)).
        split; [|apply import_found, G]. apply (a_value m g x); auto; try (apply js_name_escaped; reflexivity).
        intro O. apply (value_remains g x G X) in O. congruence.
      + apply in_map_iff in I as (x & E & I). injection E as <- <- <-. exists (AsWritten (js_module x)). split; [|reflexivity].
        apply an_external; [exact I|]. apply js_name_escaped. reflexivity.
      + apply in_map_iff in I as ((x & a) & E & I). injection E as <- <- <-. apply used_table_In in I as (I & U). exists (OfModule [] (str "gleam")).
        split; [|apply prelude_found]. apply a_prelude_part; [|exact U]. apply prelude_parts_In. exists a. split; [exact I|reflexivity].
      + apply in_map_iff in I as ((v & a) & E & I). destruct (constant_named _ _ I) as (u & U & Q). rewrite E in Q. cbn in Q. subst n. injection E as _ <- <-.
        exists (OfModule (v_package v) (v_module v)). split; [apply (a_constant m v u U)|].
        destruct (ok_constants m ok _ _ U) as (_ & _ & _ & _ & g & x & G & _ & P & M & _). rewrite <- P, <- M. apply import_found, G.
    - unfold dict_binding in I. destruct (echo_with_stdlib m) eqn:E; [|destruct I]. destruct I as [I|[]]. injection I as <- <- <-.
      exists (OfModule (str "gleam_stdlib") (str "gleam/dict")). split; [apply a_dict, E|apply dict_found].
  Qed.
  Lemma declared_bound n e w : declares m n e w -> exists p, at_place m p w /\ In (n, (p, e)) remaining.
  Proof.
    destruct 1 as [g s G A L|g s G A|g x j k G X J K O|x j X J|j x I U|v u U|E].
    - exists (import_path m (from_package g) (from_module g)). split; [apply import_found, G|]. apply others_remain. apply in_or_app. left.
      apply in_flat_map. exists g. split; [exact G|]. unfold module_binding. rewrite A. left. apply last_segment_pieces in L; [|apply (import_ok g G)]. now subst.
    - exists (import_path m (from_package g) (from_module g)). split; [apply import_found, G|]. apply others_remain. apply in_or_app. left.
      apply in_flat_map. exists g. split; [exact G|]. unfold module_binding. rewrite A. left. reflexivity.
    - exists (import_path m (from_package g) (from_module g)). split; [apply import_found, G|]. apply js_name_escaped in J, K. subst j k.
      apply in_or_app. left. apply filter_In. split.
      + unfold registered. rewrite !in_app_iff. right. left. left. apply in_map_iff. exists (g, x). split; [reflexivity|]. apply all_values_In. auto.
      + apply negb_true_iff. destruct (left_out _ _) eqn:F; [|reflexivity]. exfalso. apply O. apply (value_remains g x G X). exact F.
    - exists (js_module x). split; [reflexivity|]. apply js_name_escaped in J. subst j. apply others_remain. unfold others. rewrite !in_app_iff. right. left.
      apply in_map_iff. exists x. auto.
    - apply prelude_parts_In in I as (a & I & <-). exists (import_path m (package m) (str "gleam")). split; [apply prelude_found|]. apply others_remain. unfold others. rewrite !in_app_iff. right. right. left.
      apply in_map_iff. exists (x, a). split; [reflexivity|]. apply used_table_In. auto.
    - exists (import_path m (v_package v) (v_module v)). split.
      + destruct (ok_constants m ok _ _ U) as (_ & _ & _ & _ & g & x & G & _ & P & M & _). rewrite <- P, <- M. apply import_found, G.
      + apply others_remain. unfold others. rewrite !in_app_iff. right. right. right. destruct (constant_to _ _ U) as (a & I).
        destruct (constant_named _ _ I) as (y & Y & Q). rewrite (one_name _ _ _ U Y). apply in_map_iff. exists (v, a). split; [|exact I].
        rewrite (surjective_pairing (constant_binding m (v, a))), Q. reflexivity.
    - exists (import_path m (str "gleam_stdlib") (str "gleam/dict")). split; [apply dict_found|]. apply in_or_app. right. unfold dict_binding. rewrite E. left. reflexivity.
  Qed.
End Compile.

(** ** Exports *)
Lemma fold_exports {A} (f : imports -> A -> imports) l : (forall i a, exports (f i a) = exports i) -> forall i, exports (fold_left f l i) = exports i.
Proof. intro H. induction l as [|a l IH]; intro i; [reflexivity|]. cbn. now rewrite IH, H. Qed.
Lemma register_import_exports m i g : exports (register_import m i g) = exports i.
Proof. unfold register_import. destruct (as_name g) as [[n|]|]; reflexivity. Qed.
Lemma filter_unused_exports u i : exports (filter_unused_variants i u) = exports i.
Proof. unfold filter_unused_variants. apply fold_exports. intros j (p & n). reflexivity. Qed.
Lemma compile_exports m cs : exports (compile_imports m cs) = map (fun e => maybe_escape_identifier (function e)) (filter public (externals m)).
Proof.
  unfold compile_imports. cbv zeta.
  assert (forall i, exports (register_dict m i) = exports i) as -> by (intro i; unfold register_dict; destruct (echo_with_stdlib m); [apply register_import_exports|reflexivity]).
  rewrite filter_unused_exports.
  rewrite (fold_exports (register_constant m)) by (intros i (v & a); reflexivity).
  rewrite (fold_exports (register_prelude_usage m)) by (intros i u; reflexivity).
  unfold collect_imports.
  assert (forall l i, exports (fold_left register_external_function l i) = exports i ++ map (fun e => maybe_escape_identifier (function e)) (filter public l)) as ->.
  { induction l as [|e l IH]; intro i; cbn [fold_left filter map]; [now rewrite app_nil_r|]. rewrite IH. unfold register_external_function.
    destruct (public e); cbn; [now rewrite <- app_assoc|reflexivity]. }
  rewrite (fold_exports (register_import m)) by apply register_import_exports. reflexivity.
Qed.
Lemma exports_distinct m cs : NoDup (exported (compile m cs)).
Proof. unfold compile. rewrite into_doc_exports. unfold sorted. eapply Permutation_NoDup; [apply sorted_by_perm|apply set_of_NoDup]. Qed.
Lemma exports_In m cs n : In n (exported (compile m cs)) <-> exists e, In e (externals m) /\ public e = true /\ js_name (function e) n.
Proof.
  unfold compile. rewrite into_doc_exports, compile_exports. unfold sorted. split.
  - intro I. apply (Permutation_in _ (Permutation_sym (sorted_by_perm _ _))) in I. apply set_of_In, in_map_iff in I as (e & <- & I). apply filter_In in I as (I & P).
    exists e. split; [exact I|]. split; [exact P|]. apply js_name_escaped. reflexivity.
  - intros (e & I & P & J). apply js_name_escaped in J. subst n. apply (Permutation_in _ (sorted_by_perm _ _)). apply set_of_In. apply in_map_iff. exists e.
    split; [reflexivity|]. apply filter_In. auto.
Qed.

(** ** The order of constants *)
Fixpoint look (p : text) (l : list (text * import)) : option import :=
  match l with [] => None | (q, i) :: l => if text_eqb q p then Some i else look p l end.
Lemma look_In l : NoDup (map fst l) -> forall p i, In (p, i) l <-> look p l = Some i.
Proof.
  induction l as [|(q & j) l IH]; intros N p i; [split; [contradiction|discriminate]|]. inversion N as [|? ? N1 N2]. subst. cbn. destruct (text_eqb q p) eqn:E.
  - apply text_eqb_eq in E. subst q. split; [intros [Q|I]; [congruence|]|intro Q; left; congruence]. exfalso. apply N1. apply in_map_iff. exists (p, i). auto.
  - rewrite <- IH by exact N2. split; [intros [Q|I]; [|exact I]|auto]. apply text_eqb_neq in E. congruence.
Qed.
Lemma into_doc_look i j : kept i -> kept j -> exports i = exports j -> (forall p, look p (modules i) = look p (modules j)) -> into_doc i = into_doc j.
Proof.
  intros [N1 F1] [N2 F2] E L. unfold into_doc. rewrite E. f_equal.
  assert (Permutation (modules i) (modules j)) as P.
  { apply NoDup_Permutation; [apply (NoDup_map_inv fst), N1|apply (NoDup_map_inv fst), N2|]. intros (p & x). rewrite !look_In by assumption. now rewrite L. }
  f_equal. apply sorted_by_unique; [apply Permutation_map, P|]. intros a b A B K. rewrite Forall_forall in F1.
  apply in_map_iff in A as ((p & a') & <- & A). apply in_map_iff in B as ((q & b') & <- & B). pose proof (F1 _ A) as PA. pose proof (F1 _ B) as PB. cbn in *.
  assert (p = q) by congruence. subst q. apply (look_In _ N1) in A, B. congruence.
Qed.
Lemma look_entry p f l q : look q (entry p f l) =
  if text_eqb q p then Some (f (match look q l with Some i => i | None => Import p [] [] end)) else look q l.
Proof.
  induction l as [|(r & i) l IH]; cbn.
  - destruct (text_eqb p q) eqn:E; destruct (text_eqb q p) eqn:F; try reflexivity; [apply text_eqb_eq in E|apply text_eqb_eq in F]; subst; rewrite text_eqb_refl in *; discriminate.
  - destruct (text_eqb r p) eqn:E; cbn.
    + apply text_eqb_eq in E. subst r. destruct (text_eqb p q) eqn:F.
      * apply text_eqb_eq in F. subst q. now rewrite text_eqb_refl.
      * destruct (text_eqb q p) eqn:G; [|reflexivity]. apply text_eqb_eq in G. subst. rewrite text_eqb_refl in F. discriminate.
    + rewrite IH. destruct (text_eqb r q) eqn:F; [|reflexivity]. apply text_eqb_eq in F. subst q. now rewrite E.
Qed.
Lemma look_get_mut p f l q : look q (get_mut p f l) = if text_eqb q p then option_map f (look q l) else look q l.
Proof.
  induction l as [|(r & i) l IH]; cbn.
  - destruct (text_eqb q p); reflexivity.
  - destruct (text_eqb r p) eqn:E; cbn.
    + apply text_eqb_eq in E. subst r. destruct (text_eqb p q) eqn:F.
      * apply text_eqb_eq in F. subst q. now rewrite text_eqb_refl.
      * destruct (text_eqb q p) eqn:G; [|reflexivity]. apply text_eqb_eq in G. subst. rewrite text_eqb_refl in F. discriminate.
    + rewrite IH. destruct (text_eqb r q) eqn:F; [|reflexivity]. apply text_eqb_eq in F. subst q. now rewrite E.
Qed.
Section Fold.
  Context {A : Type} (f : imports -> A -> imports) (key : A -> text) (F : A -> option import -> option import).
  Context (step : forall i a q, look q (modules (f i a)) = if text_eqb q (key a) then F a (look q (modules i)) else look q (modules i)).
  Lemma fold_look l : NoDup (map key l) -> forall i q, look q (modules (fold_left f l i)) =
    match find (fun a => text_eqb q (key a)) l with Some a => F a (look q (modules i)) | None => look q (modules i) end.
  Proof.
    induction l as [|a l IH]; intros N i q; [reflexivity|]. inversion N as [|? ? N1 N2]. subst. cbn [fold_left find]. rewrite IH by exact N2. rewrite step.
    destruct (text_eqb q (key a)) eqn:E; [|reflexivity]. destruct (find _ l) as [b|] eqn:G; [|reflexivity].
    apply find_some in G as (I & G). apply text_eqb_eq in E, G. exfalso. apply N1. rewrite <- E, G. apply in_map, I.
  Qed.
  Lemma find_same l l' q : NoDup (map key l) -> Permutation l l' -> find (fun a => text_eqb q (key a)) l = find (fun a => text_eqb q (key a)) l'.
  Proof.
    intros N P. destruct (find _ l) as [a|] eqn:E, (find _ l') as [b|] eqn:G; [|exfalso|exfalso|reflexivity].
    - apply find_some in E as (I & E). apply find_some in G as (J & G). apply text_eqb_eq in E, G. f_equal.
      apply (NoDup_image key l); auto; [apply (Permutation_in _ (Permutation_sym P)), J|congruence].
    - apply find_some in E as (I & E). pose proof (find_none _ _ G a (Permutation_in _ P I)) as X. cbn in X. congruence.
    - apply find_some in G as (J & G). pose proof (find_none _ _ E b (Permutation_in _ (Permutation_sym P) J)) as X. cbn in X. congruence.
  Qed.
  Lemma fold_order l l' i j : NoDup (map key l) -> Permutation l l' -> (forall q, look q (modules i) = look q (modules j)) ->
    forall q, look q (modules (fold_left f l i)) = look q (modules (fold_left f l' j)).
  Proof.
    intros N P H q. rewrite !fold_look; [|eapply Permutation_NoDup; [apply Permutation_map, P|exact N]|exact N].
    rewrite (find_same l l' q N P), H. reflexivity.
  Qed.
End Fold.

Lemma compile_kept m cs : kept (compile_imports m cs).
Proof.
  assert (forall A (f : imports -> A -> imports), (forall i a, kept i -> kept (f i a)) -> forall l i, kept i -> kept (fold_left f l i)) as FK.
  { intros A f H. induction l as [|a l IH]; intros i K; [exact K|]. apply IH, H, K. }
  unfold compile_imports. cbv zeta.
  assert (kept (fold_left (register_constant m) cs (fold_left (register_prelude_usage m) (used_table m) (collect_imports m)))) as K.
  { apply FK; [intros i a; apply register_constant_raw|]. apply FK; [intros i a; apply register_prelude_raw|].
    apply FK; [intros i a; apply register_external_raw|]. apply FK; [intros i a; apply register_import_raw|]. apply kept_none. }
  assert (forall u i, kept i -> kept (filter_unused_variants i u)) as KF.
  { intros u. apply FK. intros i (p & n) [K1 K2].
    destruct (get_mut_kept p (fun i => Import (path i) (aliases i) (remove_first n (unqualified i))) (modules i)) as (M & F); [reflexivity|].
    split; cbn; [rewrite M; exact K1|apply F, K2]. }
  unfold register_dict. destruct (echo_with_stdlib m); [apply register_import_raw|]; apply KF, K.
Qed.
Lemma order_ignored m cs cs' : NoDup (map (fun c => import_path m (v_package (fst c)) (v_module (fst c))) cs) -> Permutation cs cs' ->
  compile m cs = compile m cs'.
Proof.
  intros N P. apply into_doc_look; try apply compile_kept; [now rewrite !compile_exports|].
  unfold compile_imports. cbv zeta. set (base := fold_left (register_prelude_usage m) (used_table m) (collect_imports m)).
  assert (forall q, look q (modules (fold_left (register_constant m) cs base)) = look q (modules (fold_left (register_constant m) cs' base))) as L1.
  { apply (fold_order _ (fun c => import_path m (v_package (fst c)) (v_module (fst c)))
      (fun c o => Some (let i := match o with Some i => i | None => Import (import_path m (v_package (fst c)) (v_module (fst c))) [] [] end in
         Import (path i) (aliases i ++ []) (unqualified i ++ [Member (constant (v_type (fst c)) (v_name (fst c))) (snd c)])))); [|exact N|exact P|reflexivity].
    intros i (v & a) q. unfold register_constant, register_module. cbn [modules fst snd]. apply look_entry. }
  assert (forall q, look q (modules (filter_unused_variants (fold_left (register_constant m) cs base) (unused m cs)))
    = look q (modules (filter_unused_variants (fold_left (register_constant m) cs' base) (unused m cs')))) as L2.
  { apply (fold_order _ fst (fun c => option_map (fun i => Import (path i) (aliases i) (remove_first (snd c) (unqualified i))))); [| | |exact L1].
    - intros i (p & n) q. cbn [modules fst snd]. apply look_get_mut.
    - unfold unused. rewrite map_map. rewrite (map_ext _ (fun c => import_path m (v_package (fst c)) (v_module (fst c)))) by (intros (v & a); reflexivity).
      apply NoDup_filtered, N.
    - apply Permutation_map, filter_perm, P. }
  intro q. unfold register_dict. destruct (echo_with_stdlib m); [|apply L2]. unfold register_import, register_module. cbn [as_name modules].
  rewrite !look_entry, L2. reflexivity.
Qed.
Lemma one_each_files m cs : checked m -> one_constant_each m -> Permutation cs (variant_constants_used m) ->
  NoDup (map (fun c => import_path m (v_package (fst c)) (v_module (fst c))) cs).
Proof.
  intros ok one order. apply NoDup_map_inj; [apply (NoDup_map_inv fst), (constants_once m cs order)|].
  intros (v & a) (w & b) I J E. cbn in E. destruct (constant_from m cs order _ _ I) as (u & U & _). destruct (constant_from m cs order _ _ J) as (y & Y & _).
  destruct (ok_constants m ok _ _ U) as (_ & _ & _ & _ & g & x & G & _ & P & M & _). rewrite <- P, <- M in E.
  destruct (same_file m ok g w y G Y E) as (A & B). assert (v = w) as <- by (eapply one; eauto; congruence).
  apply (NoDup_image fst cs); auto. apply (constants_once m cs order).
Qed.
