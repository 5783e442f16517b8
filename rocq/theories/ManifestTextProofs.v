From Coq Require Import String NArith Arith List Bool Lia ZifyBool ZifyN ZifyNat Permutation Sorted.
From Verif Require Import Text TextProofs Version VersionSpec VersionProofs Toml ManifestText ManifestTextSpec.
Import ListNotations.
Local Open Scope list_scope.
Local Open Scope N_scope.

(** ** Sorting *)
Lemma cmp_refl a : text_cmp a a = Eq.
Proof. induction a; cbn; [reflexivity|]. rewrite N.compare_refl. assumption. Qed.
Lemma cmp_eq a : forall b, text_cmp a b = Eq -> a = b.
Proof.
  induction a as [|x a IH]; intros [|y b] H; try discriminate; [reflexivity|]. cbn in H.
  destruct (x ?= y) eqn:C; try discriminate. apply N.compare_eq in C. subst. f_equal. auto.
Qed.
Lemma cmp_opp a : forall b, text_cmp b a = CompOpp (text_cmp a b).
Proof.
  induction a as [|x a IH]; intros [|y b]; try reflexivity. cbn. rewrite (N.compare_antisym x y).
  destruct (x ?= y); cbn; auto.
Qed.
Definition le (a b : text) : Prop := text_cmp a b <> Gt.
Lemma le_trans a : forall b c, le a b -> le b c -> le a c.
Proof.
  unfold le. induction a as [|x a IH]; intros [|y b] [|z c] H G; cbn in *; try congruence.
  destruct (x ?= y) eqn:C1, (y ?= z) eqn:C2; try congruence;
    rewrite ?N.compare_eq_iff, ?N.compare_lt_iff in *; subst.
  - rewrite N.compare_refl. eauto.
  - apply N.compare_lt_iff in C2. rewrite C2. congruence.
  - apply N.compare_lt_iff in C1. rewrite C1. congruence.
  - assert (x < z) as L by lia. apply N.compare_lt_iff in L. rewrite L. congruence.
Qed.
Lemma le_antisym a b : le a b -> le b a -> a = b.
Proof.
  unfold le. intros H G. rewrite cmp_opp in G. destruct (text_cmp a b) eqn:C; cbn in G; try congruence.
  apply cmp_eq, C.
Qed.

Section Sort.
  Context {A : Type} (key : A -> text).
  Definition before (a b : A) : Prop := le (key a) (key b).
  Definition in_order := StronglySorted before.
  Lemma insert_by_perm a l : Permutation (a :: l) (insert_by key a l).
  Proof.
    induction l as [|b l IH]; cbn; [reflexivity|]. destruct (text_cmp (key a) (key b)); try reflexivity.
    rewrite perm_swap. constructor. exact IH.
  Qed.
  Lemma sorted_by_perm l : Permutation l (sorted_by key l).
  Proof. induction l as [|a l IH]; [constructor|]. cbn. rewrite <- insert_by_perm. constructor. exact IH. Qed.
  Lemma insert_by_order a l : in_order l -> in_order (insert_by key a l).
  Proof.
    induction 1 as [|b l S IH F]; cbn; [repeat constructor|].
    assert (before a b -> in_order (a :: b :: l)) as E.
    { intro B. constructor; [constructor; assumption|]. constructor; [exact B|].
      eapply Forall_impl; [|exact F]. intros c. unfold before. apply le_trans. exact B. }
    destruct (text_cmp (key a) (key b)) eqn:C; try (apply E; unfold before, le; congruence).
    constructor; [exact IH|]. eapply Permutation_Forall; [apply insert_by_perm|]. constructor; [|exact F].
    unfold before, le. rewrite cmp_opp, C. discriminate.
  Qed.
  Lemma sorted_by_order l : in_order (sorted_by key l).
  Proof. induction l; cbn; [constructor|]. apply insert_by_order. assumption. Qed.
  Lemma order_unique l : forall l', in_order l -> in_order l' -> Permutation l l' ->
    (forall a b, In a l -> In b l -> key a = key b -> a = b) -> l = l'.
  Proof.
    induction l as [|a l IH]; intros l' O O' P K.
    - apply Permutation_nil in P. congruence.
    - destruct l' as [|b l']; [symmetry in P; apply Permutation_nil in P; discriminate|].
      inversion O as [|? ? S F]; subst. inversion O' as [|? ? S' F']; subst.
      assert (a = b) as ->.
      { apply K; [left; reflexivity| |].
        - eapply Permutation_in; [symmetry; exact P|]. left. reflexivity.
        - apply le_antisym.
          + assert (In b (a :: l)) as [->|I] by (eapply Permutation_in; [symmetry; exact P|]; left; reflexivity).
            * unfold le. rewrite cmp_refl. discriminate.
            * rewrite Forall_forall in F. apply F, I.
          + assert (In a (b :: l')) as [->|I] by (eapply Permutation_in; [exact P|]; left; reflexivity).
            * unfold le. rewrite cmp_refl. discriminate.
            * rewrite Forall_forall in F'. apply F', I. }
      f_equal. apply Permutation_cons_inv in P. apply IH; auto. intros; apply K; auto; right; assumption.
  Qed.
  Lemma sorted_by_unique l l' : Permutation l l' ->
    (forall a b, In a l -> In b l -> key a = key b -> a = b) -> sorted_by key l = sorted_by key l'.
  Proof.
    intros P K. apply order_unique; try apply sorted_by_order.
    - rewrite <- !sorted_by_perm. exact P.
    - intros a b I J. apply K; eapply Permutation_in; try (symmetry; apply sorted_by_perm); assumption.
  Qed.
  Lemma sorted_by_same l : in_order l -> sorted_by key l = l.
  Proof.
    induction 1 as [|a l S IH F]; cbn; [reflexivity|]. fold (sorted_by key l). rewrite IH. destruct l as [|b l]; [reflexivity|].
    cbn. inversion F as [|? ? B _]; subst. unfold before, le in B. destruct (text_cmp _ _); congruence.
  Qed.
  Lemma order_map {B} (key' : B -> text) (f : A -> B) l : (forall a, key' (f a) = key a) ->
    in_order l -> StronglySorted (fun a b => le (key' a) (key' b)) (map f l).
  Proof.
    intros K. induction 1 as [|a l S IH F]; cbn; [constructor|]. constructor; [exact IH|].
    apply Forall_map. eapply Forall_impl; [|exact F]. intros b. unfold before. rewrite !K. auto.
  Qed.
End Sort.
Lemma nodup_keys {A B} (l : list (A * B)) : NoDup (map fst l) ->
  forall a b, In a l -> In b l -> fst a = fst b -> a = b.
Proof.
  induction l as [|[x y] l IH]; intros N a b I J E; [contradiction|]. inversion N; subst.
  destruct I as [<-|I], J as [<-|J]; auto; cbn in E; exfalso; subst;
    match goal with H : ~ In _ _ |- _ => apply H end; rewrite ?E; first [apply in_map, J|rewrite <- E; apply in_map, I|apply in_map, I].
Qed.
Lemma nodup_name {A} (key : A -> text) (l : list A) : NoDup (map key l) ->
  forall a b, In a l -> In b l -> key a = key b -> a = b.
Proof.
  induction l as [|x l IH]; intros N a b I J E; [contradiction|]. inversion N; subst.
  destruct I as [<-|I], J as [<-|J]; auto; exfalso;
    match goal with H : ~ In _ _ |- _ => apply H end; first [rewrite E; apply in_map, J|rewrite <- E; apply in_map, I].
Qed.

(** ** Reading what is written *)
Lemma string_body_plain s rest : plain s -> string_body (s ++ 34 :: rest) = Some (s, rest).
Proof.
  induction 1 as [|c s (Q & B & C & D) F IH]; [reflexivity|]. cbn [app string_body]. fold plain in *.
  replace (c =? 34) with false by lia. replace (c =? 92) with false by lia.
  replace (control c) with false by (unfold control; lia). rewrite IH. reflexivity.
Qed.

Definition begins (t : text) : Prop :=
  match t with c :: _ => c = 34 \/ c = 91 \/ c = 123 | [] => False end.
Definition reads (t : text) (v : toml) : Prop :=
  begins t /\ forall f rest, (2 * length (t ++ rest) < f)%nat -> value f (t ++ rest) = Some (v, rest).
Lemma begins_blanks t rest : begins t -> skip_blanks (t ++ rest) = t ++ rest.
Proof. destruct t as [|c t]; intro B; [contradiction|]. cbn in *. destruct B as [->|[->| ->]]; reflexivity. Qed.
Lemma begins_skip t rest : begins t -> skip false (t ++ rest) = t ++ rest.
Proof. destruct t as [|c t]; intro B; [contradiction|]. cbn in *. destruct B as [->|[->| ->]]; reflexivity. Qed.

Lemma reads_quoted s : plain s -> reads (quoted s) (Str s).
Proof.
  intro P. split; [cbn; auto|]. intros [|f] rest L; [lia|]. unfold quoted. rewrite <- !app_assoc.
  cbn [app value]. rewrite string_body_plain by exact P. reflexivity.
Qed.

Ltac len := unfold quoted in *; repeat (rewrite ?app_length in *; cbn [length app] in *); lia.

Lemma items_strings l : forall s f rest i, Forall plain (s :: l) ->
  (2 * length (quoted s ++ strings_from (S i) l ++ 93%N :: rest) + 1 < f)%nat ->
  items f (quoted s ++ strings_from (S i) l ++ 93 :: rest) = Some (map Str (s :: l), rest).
Proof.
  induction l as [|s' l IH]; intros s f rest i F L; destruct f as [|f]; try lia;
    inversion F; subst; pose proof (reads_quoted s ltac:(assumption)) as [_ R].
  - cbn [strings_from app] in *. cbn [items].
    replace (quoted s ++ 93 :: rest) with (34 :: (s ++ [34]) ++ 93 :: rest) at 1 by reflexivity.
    cbn iota. rewrite R by len. reflexivity.
  - cbn [strings_from] in *. cbn [items].
    match goal with |- context [quoted s ++ ?r] => replace (quoted s ++ r) with (34 :: (s ++ [34]) ++ r) at 1 by reflexivity end.
    cbn iota. rewrite R by len. rewrite <- !app_assoc in *.
    change (skip false (str ", " ++ quoted s' ++ strings_from (S (S i)) l ++ 93 :: rest))
      with (44 :: 32 :: quoted s' ++ strings_from (S (S i)) l ++ 93 :: rest). cbn iota.
    change (skip false (32 :: quoted s' ++ strings_from (S (S i)) l ++ 93 :: rest))
      with (quoted s' ++ strings_from (S (S i)) l ++ 93 :: rest).
    rewrite IH; [reflexivity|assumption|]. change (str ", ") with [44; 32] in L. len.
Qed.
Definition array_of (l : list text) : text := 91 :: strings_from 0 l ++ [93].
Lemma reads_array l : Forall plain l -> reads (array_of l) (Array (map Str l)).
Proof.
  intro F. split; [cbn; auto|]. intros [|f] rest L; [lia|]. unfold array_of in *. cbn [app value] in *.
  rewrite <- app_assoc in *. cbn [app] in *. destruct l as [|s l].
  - cbn in *. destruct f; [lia|reflexivity].
  - cbn [strings_from] in *. change ([] ++ quoted s ++ strings_from 1 l) with (quoted s ++ strings_from 1 l) in *.
    rewrite <- app_assoc in *.
    change (skip false (quoted s ++ strings_from 1 l ++ 93 :: rest)) with (quoted s ++ strings_from 1 l ++ 93 :: rest).
    rewrite items_strings; [reflexivity|exact F|len].
Qed.

(** Inline tables as they are written. *)
Fixpoint pairs (l : list (text * text)) : text :=
  match l with
  | [] => []
  | [(k, t)] => k ++ str " = " ++ t
  | (k, t) :: l => k ++ str " = " ++ t ++ str ", " ++ pairs l
  end.
Definition inline (l : list (text * text)) : text := str "{ " ++ pairs l ++ str " }".
Definition bare_key (k : text) : Prop := k <> [] /\ Forall (fun c => bare c = true) k.
Definition pair_reads (e : text * text) (f : text * toml) : Prop :=
  fst e = fst f /\ bare_key (fst e) /\ reads (snd e) (snd f).

Lemma span_bare k c rest : Forall (fun c => bare c = true) k -> bare c = false ->
  span_while bare (k ++ c :: rest) = (k, c :: rest).
Proof. intros F B. induction F as [|x k X F IH]; cbn; [rewrite B; reflexivity|]. rewrite X, IH. reflexivity. Qed.
Lemma key_bare k c rest : bare_key k -> bare c = false -> key (k ++ c :: rest) = Some (k, c :: rest).
Proof. intros [N F] B. unfold key. rewrite span_bare by assumption. destruct k; [contradiction|reflexivity]. Qed.
Lemma bare_blank c : bare c = true -> Toml.blank c = false.
Proof. unfold bare, Toml.blank, is_alphanumeric, is_digit, is_upper, is_lower. lia. Qed.
Lemma key_blanks k rest : bare_key k -> skip_blanks (k ++ rest) = k ++ rest.
Proof.
  intros [N F]. destruct F as [|c k B F]; [contradiction|]. cbn. rewrite bare_blank by assumption. reflexivity.
Qed.
Lemma equals_read t rest : begins t -> equals (str " = " ++ t ++ rest) = Some (t ++ rest).
Proof. intro B. unfold equals. cbn [str app]. cbn -[skip_blanks]. change (skip_blanks (32 :: 61 :: 32 :: t ++ rest)) with (61 :: 32 :: t ++ rest). cbn iota. cbn [skip_blanks]. change (Toml.blank 32) with true. cbn iota. rewrite begins_blanks by exact B. reflexivity. Qed.

Lemma fields_pairs l : forall vs f rest, l <> [] -> Forall2 pair_reads l vs ->
  (2 * length (pairs l ++ str " }" ++ rest) < f)%nat ->
  fields f (pairs l ++ str " }" ++ rest) = Some (vs, rest).
Proof.
  induction l as [|[k t] l IH]; intros vs f rest N F L; [contradiction|]. clear N.
  inversion F as [|? [k' v] ? vs' (E & K & [B R]) F']; subst. cbn [fst snd] in *. subst k'.
  assert (1 <= length k)%nat as LK. { destruct K as [K _]. destruct k; [contradiction|cbn; lia]. }
  destruct f as [|f]; [lia|]. cbn [fields].
  assert (forall r, key (k ++ str " = " ++ r) = Some (k, str " = " ++ r)) as KR.
  { intro r. apply (key_bare k 32 (61 :: 32 :: r)); [exact K|reflexivity]. }
  change (str " = ") with [32; 61; 32] in L. change (str " }") with [32; 125] in *.
  destruct l as [|e l].
  - inversion F'; subst. cbn [pairs] in *. rewrite <- !app_assoc in *. rewrite KR, equals_read by exact B.
    rewrite R by len. reflexivity.
  - change (pairs ((k, t) :: e :: l)) with (k ++ str " = " ++ t ++ str ", " ++ pairs (e :: l)) in *.
    change (str " = " ++ t ++ str ", " ++ pairs (e :: l)) with (str " = " ++ t ++ [44; 32] ++ pairs (e :: l)) in *.
    change (str " = ") with [32; 61; 32] in L.
    rewrite <- !app_assoc in *. rewrite KR, equals_read by exact B.
    rewrite R by len. cbn [app skip_blanks]. change (Toml.blank 44) with false. cbn iota.
    cbn [skip_blanks]. change (Toml.blank 32) with true. cbn iota.
    assert (skip_blanks (pairs (e :: l) ++ 32 :: 125 :: rest) = pairs (e :: l) ++ 32 :: 125 :: rest) as ->.
    { inversion F' as [|? ? ? ? (_ & K' & _) _]; subst. destruct e as [k' t'], l as [|e l]; cbn [pairs fst] in *;
        rewrite <- !app_assoc; apply key_blanks, K'. }
    change (32 :: 125 :: rest) with ([32; 125] ++ rest).
    rewrite (IH vs'); [reflexivity|discriminate|exact F'|len].
Qed.
Lemma reads_inline l vs : l <> [] -> Forall2 pair_reads l vs -> reads (inline l) (Table vs).
Proof.
  intros N F. split; [cbn; auto|]. intros [|f] rest L; [lia|]. unfold inline in *. rewrite <- !app_assoc in *.
  change (str "{ " ++ pairs l ++ str " }" ++ rest) with (123 :: 32 :: pairs l ++ str " }" ++ rest) in *.
  cbn [value skip_blanks]. change (Toml.blank 32) with true. cbn iota.
  assert (exists c q, pairs l ++ str " }" ++ rest = c :: q /\ Toml.blank c = false /\ bare c = true) as (c & q & E & B & C).
  { inversion F as [|[k t] ? l' ? (_ & [K B] & _) _]; subst; [contradiction|]. cbn in K, B.
    destruct B as [|c k B _]; [contradiction|]. exists c. pose proof (bare_blank _ B).
    destruct l'; cbn [pairs app]; eauto. }
  assert (fields f (pairs l ++ str " }" ++ rest) = Some (vs, rest)) as R.
  { apply fields_pairs; [assumption..|]. cbn [length] in L. lia. }
  rewrite E in *. cbn [skip_blanks]. rewrite B.
  destruct c as [|p]; [rewrite R; reflexivity|]; do 7 try (destruct p as [p|p|]); try discriminate C; try (rewrite R; reflexivity).
Qed.

(** The packages, one on each line. *)
Definition package_line (t : text) : text := str "  " ++ t ++ str "," ++ [10].
Definition begins_table (t : text) : Prop := exists r, t = 123 :: r.
Lemma items_lines ts : forall vs f rest, Forall begins_table ts -> Forall2 reads ts vs ->
  (2 * length (flat_map package_line ts ++ 93%N :: rest) + 1 < f)%nat ->
  items f (skip false (flat_map package_line ts ++ 93 :: rest)) = Some (vs, rest).
Proof.
  induction ts as [|t ts IH]; intros vs f rest Bs F L; inversion F as [|? v ? vs' [B R] F']; subst;
    destruct f as [|f]; try lia; [reflexivity|].
  inversion Bs as [|? ? [q ->] Bs']; subst. cbn [flat_map] in *. unfold package_line in L at 1. unfold package_line at 1.
  rewrite <- !app_assoc in *.
  change (skip false (str "  " ++ (123 :: q) ++ str "," ++ [10] ++ flat_map package_line ts ++ 93 :: rest))
    with ((123 :: q) ++ str "," ++ [10] ++ flat_map package_line ts ++ 93 :: rest).
  change (str "  ") with [32; 32] in L. change (str ",") with [44] in *.
  cbn [items]. cbn [app]. cbn iota.
  change (123 :: q ++ 44 :: 10 :: flat_map package_line ts ++ 93 :: rest)
    with ((123 :: q) ++ 44 :: 10 :: flat_map package_line ts ++ 93 :: rest).
  rewrite R by len.
  change (skip false (44 :: 10 :: flat_map package_line ts ++ 93 :: rest)) with (44 :: 10 :: flat_map package_line ts ++ 93 :: rest).
  cbn iota. change (skip false (10 :: flat_map package_line ts ++ 93 :: rest)) with (skip false (flat_map package_line ts ++ 93 :: rest)).
  rewrite (IH vs'); [reflexivity|assumption|assumption|len].
Qed.

(** The requirements, one on each line. *)
Definition entry_line (e : text * text) : text := fst e ++ str " = " ++ snd e ++ [10].
Definition lower_first (k : text) : Prop := exists c r, k = c :: r /\ 97 <= c <= 122.
Lemma skip_lower k rest : lower_first k -> skip false (k ++ rest) = k ++ rest.
Proof.
  intros (c & r & -> & B). cbn [app skip]. replace (c =? 10) with false by lia.
  replace (Toml.blank c) with false by (unfold Toml.blank; lia). replace (c =? 35) with false by lia. reflexivity.
Qed.
Lemma lines_entries es : forall vs f s, Forall (fun e => lower_first (fst e)) es -> Forall2 pair_reads es vs ->
  skip false s = skip false (flat_map entry_line es) -> (2 * length (flat_map entry_line es) < f)%nat ->
  lines f s = Some (Document vs []).
Proof.
  induction es as [|[k t] es IH]; intros vs f s Ls F E L; destruct f as [|f]; try lia; cbn [lines]; rewrite E.
  - inversion F; subst. reflexivity.
  - inversion F as [|? [k' v] ? vs' (X & K & [B R]) F']; subst. cbn [fst snd] in *. subst k'.
    inversion Ls as [|? ? LK Ls']; subst. cbn [fst flat_map] in *. unfold entry_line at 1. unfold entry_line in L at 1. cbn [fst snd] in *.
    rewrite <- !app_assoc in *. rewrite skip_lower by exact LK.
    assert (1 <= length k)%nat as L1. { destruct LK as (? & ? & -> & _). cbn. lia. }
    assert (key (k ++ str " = " ++ t ++ [10] ++ flat_map entry_line es) = Some (k, str " = " ++ t ++ [10] ++ flat_map entry_line es)) as KR.
    { apply (key_bare k 32 (61 :: 32 :: t ++ [10] ++ flat_map entry_line es)); [exact K|reflexivity]. }
    change (str " = ") with [32; 61; 32] in L.
    assert (lines f ([10] ++ flat_map entry_line es) = Some (Document vs' [])) as Rest.
    { apply (IH vs'); [assumption|assumption|reflexivity|len]. }
    destruct LK as (c & r & E2 & B2). rewrite E2 in KR |- *. cbn [app] in KR |- *.
    change (c :: r) with ([c] ++ r) in KR.
    cbn [app] in KR, Rest.
    destruct c as [|p]; [lia|]. do 7 try (destruct p as [p|p|]); try (exfalso; lia);
      cbv beta iota; rewrite KR; rewrite (equals_read t (10 :: flat_map entry_line es) B);
      rewrite R by len; cbn [line_end skip_blanks Toml.blank N.eqb Pos.eqb orb]; rewrite Rest; reflexivity.
Qed.

(** ** The manifest *)
Definition canon_source (root : text) (s : source) : source :=
  match s with
  | FromLocal p => FromLocal (with_slashes (make_relative root p))
  | FromGit r c (Some p) => FromGit r c (Some (with_slashes p))
  | s => s
  end.
Definition canon_package (root : text) (p : package) : package :=
  Package (name p) (at_version p) (build_tools p) (otp_app p) (sorted_by (fun s => s) (needs p)) (canon_source root (from p)).
Definition canon_requirement (root : text) (r : requirement) : requirement :=
  match r with
  | Path p => Path (with_slashes (make_relative root p))
  | Git g r (Some p) => Git g r (Some (with_slashes p))
  | r => r
  end.
Definition canon (root : text) (m : manifest) : manifest :=
  Manifest (map (fun e => (fst e, canon_requirement root (snd e))) (sorted_by fst (requirements m)))
           (map (canon_package root) (sorted_by name (packages m))).

Definition source_fields (root : text) (s : source) : list (text * (text * toml)) :=
  let string s := (quoted s, Str s) in
  match s with
  | FromHex c => [(str "source", string (str "hex")); (str "outer_checksum", string (base_16_encoded_string c))]
  | FromGit r c p =>
      [(str "source", string (str "git")); (str "repo", string r); (str "commit", string c)]
      ++ match p with Some p => [(str "path", string (with_slashes p))] | None => [] end
  | FromLocal p => [(str "source", string (str "local")); (str "path", string (with_slashes (make_relative root p)))]
  end.
Definition package_fields (root : text) (p : package) : list (text * (text * toml)) :=
  let string s := (quoted s, Str s) in
  let list l := (array_of l, Array (map Str l)) in
  [(str "name", string (name p)); (str "version", string (show (at_version p)));
   (str "build_tools", list (build_tools p)); (str "requirements", list (sorted_by (fun s => s) (needs p)))]
  ++ match otp_app p with Some a => [(str "otp_app", string a)] | None => [] end
  ++ source_fields root (from p).
Definition requirement_fields (root : text) (r : requirement) : list (text * (text * toml)) :=
  let string s := (quoted s, Str s) in
  match r with
  | Hex range => [(str "version", string range)]
  | Path p => [(str "path", string (with_slashes (make_relative root p)))]
  | Git g r p =>
      [(str "git", string g); (str "ref", string r)]
      ++ match p with Some p => [(str "path", string (with_slashes p))] | None => [] end
  end.
Definition texts (l : list (text * (text * toml))) : list (text * text) := map (fun e => (fst e, fst (snd e))) l.
Definition values (l : list (text * (text * toml))) : list (text * toml) := map (fun e => (fst e, snd (snd e))) l.

Lemma package_text root p : package_to_toml root p = package_line (inline (texts (package_fields root p))).
Proof.
  destruct p as [n v tools oa ns src]. unfold package_to_toml, package_line, inline, otp_app_to_toml, source_to_toml.
  cbn [name at_version build_tools otp_app needs from].
  assert (forall l r, array_of l ++ r = [91] ++ strings_from 0 l ++ [93] ++ r) as A.
  { intros. unfold array_of. cbn [app]. rewrite <- app_assoc. reflexivity. }
  destruct oa as [a|]; [|destruct src as [c|r c [q|]|q]]; [destruct src as [c|r c [q|]|q]|..];
    unfold package_fields, source_fields, texts; cbn [name at_version build_tools otp_app needs from map app fst snd pairs];
    rewrite <- ?app_assoc, ?A; rewrite <- ?app_assoc, ?A; rewrite <- ?app_assoc; reflexivity.
Qed.
Lemma requirement_text root r : requirement_to_toml root r = inline (texts (requirement_fields root r)).
Proof. destruct r as [g|q|g f [q|]]; unfold inline; cbn [requirement_to_toml requirement_fields texts map app fst snd pairs]; rewrite <- ?app_assoc; reflexivity. Qed.

(** ** Texts that need no escapes *)
Lemma alphanumeric_plain c : is_alphanumeric c = true -> plain_char c.
Proof. unfold is_alphanumeric, is_digit, is_upper, is_lower, plain_char. lia. Qed.
Lemma plain_app a b : plain a -> plain b -> plain (a ++ b).
Proof. intros. apply Forall_app. split; assumption. Qed.
Lemma decimal_plain n : plain (decimal n).
Proof. eapply Forall_impl; [|apply decimal_digits]. cbn. intros c. unfold is_digit, plain_char. lia. Qed.
Lemma plain_words s : alphanumeric s -> plain s.
Proof. apply Forall_impl, alphanumeric_plain. Qed.
Ltac plain_str := repeat constructor; unfold plain_char; cbn; lia.
Lemma hyphenated_plain s : hyphenated s -> plain s.
Proof.
  induction 1 as [s (_ & A & _)|s r (_ & A & _) H IH]; [apply plain_words, A|].
  apply plain_app; [apply plain_words, A|]. apply plain_app; [plain_str|exact IH].
Qed.
Lemma dotted_plain s : dotted s -> plain s.
Proof.
  induction 1 as [s A _|s r A _ H IH]; [apply plain_words, A|].
  apply plain_app; [apply plain_words, A|]. apply plain_app; [plain_str|exact IH].
Qed.
Lemma identifier_plain i : legal_identifier i -> plain (show_identifier i).
Proof. destruct i as [n|s]; cbn; [intros _; apply decimal_plain|]. intros [H _]. apply hyphenated_plain, H. Qed.
Lemma show_dotted_plain l : Forall legal_identifier l -> plain (show_dotted l).
Proof.
  induction 1 as [|i l I F IH]; [constructor|]. destruct l as [|j l].
  - apply identifier_plain, I.
  - change (show_dotted (i :: j :: l)) with (show_identifier i ++ str "." ++ show_dotted (j :: l)).
    apply plain_app; [apply identifier_plain, I|]. apply plain_app; [plain_str|exact IH].
Qed.
Lemma show_plain v : legal_version v -> plain (show v).
Proof.
  intros (_ & _ & _ & P & B). unfold show.
  repeat (apply plain_app; [first [apply decimal_plain|plain_str|idtac]|]).
  - destruct (is_pre v); [|constructor]. apply plain_app; [plain_str|apply show_dotted_plain, P].
  - destruct (build v) as [b|]; [|constructor]. destruct B as [_ B]. apply plain_app; [plain_str|apply dotted_plain, B].
Qed.
Lemma hex_digit_plain d : d < 16 -> plain_char (hex_digit d).
Proof. intro. unfold hex_digit, plain_char. destruct (d <? 10) eqn:E; lia. Qed.
Lemma base_16_plain l : Forall (fun b => b < 256) l -> plain (base_16_encoded_string l).
Proof.
  induction 1 as [|b l B F IH]; [constructor|]. cbn.
  constructor; [|constructor; [|exact IH]]; apply hex_digit_plain;
    [apply N.div_lt_upper_bound; lia|apply N.mod_lt; lia].
Qed.
Lemma hex_digit_value d : d < 16 -> hex_value (hex_digit d) = Some d.
Proof.
  intro. unfold hex_digit, hex_value, is_digit. destruct (d <? 10) eqn:E.
  - replace ((48 <=? 48 + d) && (48 + d <=? 57)) with true by lia. f_equal. lia.
  - replace ((48 <=? 55 + d) && (55 + d <=? 57)) with false by lia.
    replace ((65 <=? 55 + d) && (55 + d <=? 70)) with true by lia. f_equal. lia.
Qed.
Lemma base_16_reads l : Forall (fun b => b < 256) l -> base_16_decode (base_16_encoded_string l) = Some l.
Proof.
  induction 1 as [|b l B F IH]; [reflexivity|]. cbn [base_16_encoded_string flat_map app base_16_decode].
  rewrite !hex_digit_value; [|apply N.mod_lt; lia|apply N.div_lt_upper_bound; lia].
  fold (base_16_encoded_string l). rewrite IH. f_equal. f_equal. symmetry. apply N.div_mod. lia.
Qed.

Lemma name_char_plain c : a_name_char c -> plain_char c.
Proof. unfold a_name_char, plain_char. lia. Qed.
Lemma name_char_bare c : a_name_char c -> bare c = true.
Proof. unfold a_name_char, bare, is_alphanumeric, is_digit, is_lower, is_upper. lia. Qed.
Lemma package_name_all s : package_name s -> Forall a_name_char s.
Proof. intros (c & r & -> & B & F). constructor; [unfold a_name_char; lia|exact F]. Qed.
Lemma package_name_plain s : package_name s -> plain s.
Proof. intro P. eapply Forall_impl; [|apply package_name_all, P]. apply name_char_plain. Qed.
Lemma package_name_bare s : package_name s -> bare_key s.
Proof.
  intro P. split; [destruct P as (? & ? & -> & _); discriminate|].
  eapply Forall_impl; [|apply package_name_all, P]. apply name_char_bare.
Qed.
Lemma package_name_lower s : package_name s -> lower_first s.
Proof. intros (c & r & -> & B & _). exists c, r. auto. Qed.
Lemma package_name_valid s : package_name s -> is_valid_package_name s = true.
Proof.
  intros (c & r & -> & B & F). cbn. apply andb_true_intro. split; [unfold is_lower; lia|].
  apply forallb_forall. rewrite Forall_forall in F. intros x I. specialize (F x I).
  unfold a_name_char, is_lower, is_digit in *. lia.
Qed.

(** ** Paths *)
Lemma pieces_alone n : ~ In 47 n -> pieces n = [n].
Proof.
  induction n as [|c n IH]; intro N; [reflexivity|]. cbn. replace (c =? 47) with false.
  - rewrite IH; [reflexivity|]. intro. apply N. right. assumption.
  - symmetry. apply N.eqb_neq. intros ->. apply N. left. reflexivity.
Qed.
Lemma pieces_then n r : ~ In 47 n -> pieces (n ++ 47 :: r) = n :: pieces r.
Proof.
  induction n as [|c n IH]; intro N; [reflexivity|]. cbn. replace (c =? 47) with false.
  - rewrite IH; [reflexivity|]. intro. apply N. right. assumption.
  - symmetry. apply N.eqb_neq. intros ->. apply N. left. reflexivity.
Qed.
Lemma components_slash s : components (47 :: s) = components s.
Proof. reflexivity. Qed.
Lemma components_name n s : n <> [] -> ~ In 47 n -> (s = [] \/ exists r, s = 47 :: r) ->
  components (n ++ s) = if text_eqb n (str ".") then components s else n :: components s.
Proof.
  intros N S X. pose proof (proj2 (text_eqb_neq n []) N) as E. destruct X as [->|[r ->]]; unfold components at 1.
  - rewrite app_nil_r, pieces_alone by exact S. cbn [filter]. unfold real_piece. rewrite E.
    destruct (text_eqb n (str ".")); reflexivity.
  - rewrite pieces_then by exact S. cbn [filter]. rewrite components_slash. fold (components r). unfold real_piece.
    rewrite E. destruct (text_eqb n (str ".")); reflexivity.
Qed.
Lemma splits_components s l : splits s l -> l = components s.
Proof.
  induction 1 as [|s l H IH|n s l N S X H IH]; [reflexivity|exact IH|].
  rewrite components_name by assumption. subst l. reflexivity.
Qed.
Lemma components_splits_upto : forall k s, (length s <= k)%nat -> splits s (components s).
Proof.
  induction k as [|k IH]; intros s L.
  - destruct s; [constructor|cbn in L; lia].
  - destruct s as [|c s]; [constructor|]. destruct (N.eq_dec c 47) as [->|NE].
    + rewrite components_slash. constructor. apply IH. cbn in L. lia.
    + assert (exists n r, c :: s = n ++ r /\ n <> [] /\ ~ In 47 n /\ (r = [] \/ exists q, r = 47 :: q)) as (n & r & E & N & S & X).
      { clear - NE. revert c NE. induction s as [|d s IH]; intros c NE.
        - exists [c], []. repeat split; auto; [discriminate|]. intros [?|[]]; congruence.
        - destruct (N.eq_dec d 47) as [->|ND].
          + exists [c], (47 :: s). repeat split; eauto; [discriminate|]. intros [?|[]]; congruence.
          + destruct (IH d ND) as (n & r & -> & N & S & X). exists (c :: n), r. repeat split; auto; [discriminate|].
            intros [?|?]; [congruence|auto]. }
      rewrite E in *. rewrite components_name by assumption. apply a_name; auto. apply IH.
      rewrite app_length in L. destruct n; [contradiction|]. cbn in L. lia.
Qed.
Lemma components_splits s : splits s (components s).
Proof. eapply components_splits_upto. apply le_n. Qed.

Definition good_piece (p : text) : Prop := p <> [] /\ p <> str "." /\ ~ In 47 p.
Lemma pieces_no_slash s : Forall (fun p => ~ In 47 p) (pieces s).
Proof.
  induction s as [|c s IH]; cbn; [constructor; [intros []|constructor]|]. destruct (c =? 47) eqn:E; [constructor; [intros []|exact IH]|].
  destruct IH as [|p l P F]; constructor; auto; intros [->|I]; try discriminate E; try contradiction.
Qed.
Lemma components_good s : Forall good_piece (components s).
Proof.
  pose proof (pieces_no_slash s) as F. rewrite Forall_forall in *. intros p I. apply filter_In in I as [I R].
  unfold real_piece in R. apply andb_prop in R as [R1 R2]. repeat split; auto; intros ->; discriminate.
Qed.
Lemma join_components l : Forall good_piece l -> components (join l) = l.
Proof.
  induction 1 as [|p l (N & D & S) F IH]; [reflexivity|].
  assert (text_eqb p (str ".") = false) as E by (apply text_eqb_neq; exact D).
  destruct l as [|q l].
  - cbn [join]. rewrite <- (app_nil_r p) at 1. rewrite components_name by auto. rewrite E. reflexivity.
  - change (join (p :: q :: l)) with (p ++ 47 :: join (q :: l)). rewrite components_name by eauto.
    rewrite E, components_slash, IH. reflexivity.
Qed.
Lemma join_relative l r : Forall good_piece l -> join l <> 47 :: r.
Proof.
  intros F. destruct F as [|p l (N & D & S) F]; [discriminate|].
  destruct p as [|c p]; [contradiction|]. destruct l as [|q l]; cbn [join app]; intro E; injection E as -> _; apply S; left; reflexivity.
Qed.
Lemma diff_good a : forall b, Forall good_piece a -> Forall good_piece b -> Forall good_piece (diff a b).
Proof.
  assert (forall b : list text, Forall good_piece (map (fun _ => str "..") b)) as U.
  { induction b; constructor; auto. repeat split; try discriminate. intros [?|[?|[]]]; discriminate. }
  induction a as [|p a IH]; intros b A B; destruct B as [|q b Q B]; cbn; auto.
  - constructor; [|apply U]. pose proof (U [q]) as H. inversion H; assumption.
  - inversion A; subst. destruct (text_eqb p q); [auto|]. apply (Forall_app good_piece (str ".." :: map _ b)). split; [apply (U (q :: b))|assumption].
Qed.
Lemma walk_app l : forall a m, walk a (l ++ m) = walk (walk a l) m.
Proof. induction l as [|n l IH]; intros; cbn; [reflexivity|]. destruct (text_eqb n _); apply IH. Qed.
Lemma walk_up (b : list text) : forall acc, walk (rev b ++ acc) (map (fun _ => str "..") b) = acc.
Proof.
  intro acc. rewrite <- (rev_involutive b) at 2. rewrite map_rev. generalize (rev b) as c. clear b.
  assert (forall (c : list text) d, walk (c ++ d) (map (fun _ => str "..") c) = d) as H.
  { induction c as [|x c IH]; intros d; [reflexivity|]. cbn [map walk app]. rewrite text_eqb_refl. apply IH. }
  intro c. assert (rev (map (fun _ : text => str "..") c) = map (fun _ => str "..") c) as ->; [|apply H].
  induction c as [|x c IH]; [reflexivity|]. cbn [map rev]. rewrite IH. clear. induction c as [|y c IH]; [reflexivity|]. cbn. f_equal. exact IH.
Qed.
Lemma walk_down a : forall acc, ~ In (str "..") a -> walk acc a = rev a ++ acc.
Proof.
  induction a as [|n a IH]; intros acc N; [reflexivity|]. cbn [walk rev].
  rewrite (proj2 (text_eqb_neq n (str ".."))) by (intros ->; apply N; left; reflexivity).
  rewrite IH by (intro; apply N; right; assumption). rewrite <- app_assoc. reflexivity.
Qed.
Lemma walk_diff a : forall b acc, ~ In (str "..") a -> walk (rev b ++ acc) (diff a b) = rev a ++ acc.
Proof.
  induction a as [|p a IH]; intros b acc N.
  - destruct b as [|q b]; [reflexivity|]. exact (walk_up (q :: b) acc).
  - destruct b as [|q b]; [apply walk_down, N|]. cbn [diff]. destruct (text_eqb p q) eqn:E.
    + apply text_eqb_eq in E. subst q. cbn [rev]. rewrite <- !app_assoc. apply IH. intro; apply N; right; assumption.
    + rewrite walk_app, walk_up. apply walk_down, N.
Qed.

Lemma with_slashes_plain s : plain s -> with_slashes s = s.
Proof.
  induction 1 as [|c s (_ & B & _) F IH]; [reflexivity|]. cbn. fold (with_slashes s). rewrite IH.
  replace (c =? 92) with false by lia. reflexivity.
Qed.
Lemma pieces_plain s : plain s -> Forall plain (pieces s).
Proof.
  induction 1 as [|c s C F IH]; cbn; [constructor; constructor|]. destruct (c =? 47); [constructor; [constructor|exact IH]|].
  destruct IH as [|p l P Q]; [constructor; [constructor; [exact C|constructor]|constructor]|]. constructor; [constructor; assumption|exact Q].
Qed.
Lemma components_plain s : plain s -> Forall plain (components s).
Proof.
  intro P. apply pieces_plain in P. rewrite Forall_forall in *. intros p I. apply filter_In in I as [I _]. auto.
Qed.
Lemma join_plain l : Forall plain l -> plain (join l).
Proof.
  induction 1 as [|p l P F IH]; [constructor|]. destruct l as [|q l]; [exact P|].
  change (join (p :: q :: l)) with (p ++ str "/" ++ join (q :: l)). apply plain_app; [exact P|]. apply plain_app; [plain_str|exact IH].
Qed.
Lemma diff_plain a : forall b, Forall plain a -> Forall plain (diff a b).
Proof.
  assert (forall b : list text, Forall plain (map (fun _ => str "..") b)) as U.
  { induction b; constructor; auto. plain_str. }
  induction a as [|p a IH]; intros b A; destruct b as [|q b]; cbn [diff]; [constructor|apply (U (q :: b))|exact A|].
  - inversion A; subst. destruct (text_eqb p q); [auto|]. apply Forall_app. split; [apply U|assumption].
Qed.
Lemma relative_plain root p : plain p -> plain (make_relative root p).
Proof.
  intro P. unfold make_relative. destruct (is_absolute p); [|exact P].
  apply join_plain, diff_plain, components_plain, P.
Qed.
Lemma is_absolute_spec s : is_absolute s = true <-> absolute s.
Proof.
  unfold is_absolute, absolute. destruct s as [|c s]; [split; [discriminate|intros [? ?]; discriminate]|].
  destruct (N.eq_dec c 47) as [->|E].
  - split; [eauto|reflexivity].
  - split; [|intros [r X]; congruence]. intro H. change (starts_with (str "/") (c :: s)) with ((47 =? c) && true) in H. lia.
Qed.
Lemma relative_same root p : canonical p -> same_path root p (make_relative root p).
Proof.
  intro C. unfold make_relative. split.
  - intro A. destruct (C A) as (l & S & N). apply is_absolute_spec in A. rewrite A.
    apply splits_components in S. subst l.
    assert (Forall good_piece (diff (components p) (components root))) as G by (apply diff_good; apply components_good).
    exists (components root), (diff (components p) (components root)), (components p).
    split; [apply components_splits|]. split.
    { rewrite <- (join_components _ G) at 2. apply components_splits. }
    split; [apply components_splits|]. split; [intro; apply join_relative, G|].
    pose proof (walk_diff (components p) (components root) [] N) as W. rewrite !app_nil_r in W. exact W.
  - intro A. destruct (is_absolute p) eqn:E; [apply is_absolute_spec in E; contradiction|reflexivity].
Qed.
Lemma inside_valid s : inside s -> validate_safe_relative_path s = true.
Proof.
  intros [A (l & S & N)]. apply splits_components in S. subst l. unfold validate_safe_relative_path.
  destruct (is_absolute s) eqn:E; [apply is_absolute_spec in E; contradiction|]. cbn [negb andb].
  apply negb_true_iff. destruct (existsb _ _) eqn:X; [|reflexivity]. apply existsb_exists in X as (p & I & Q).
  apply text_eqb_eq in Q. subst p. contradiction.
Qed.

(** ** The fields *)
Definition field_reads (e : text * (text * toml)) : Prop :=
  bare_key (fst e) /\ reads (fst (snd e)) (snd (snd e)).
Lemma fields_read l : Forall field_reads l -> Forall2 pair_reads (texts l) (values l).
Proof. induction 1 as [|e l [K R] F IH]; constructor; [split; [reflexivity|split; assumption]|exact IH]. Qed.
Ltac bare_str := split; [discriminate|repeat constructor].
Ltac string_field := split; [bare_str|apply reads_quoted].
Lemma source_fields_read root s : fine_source plain s -> Forall field_reads (source_fields root s).
Proof.
  destruct s as [c|r c p|p]; intro F.
  - constructor; [string_field; plain_str|]. constructor; [|constructor]. string_field. apply base_16_plain, F.
  - destruct F as (R & C & P). constructor; [string_field; plain_str|]. constructor; [string_field; exact R|].
    constructor; [string_field; exact C|]. destruct p as [p|]; [|constructor]. constructor; [|constructor].
    destruct P as [P _]. string_field. rewrite with_slashes_plain; exact P.
  - destruct F as [P _]. constructor; [string_field; plain_str|]. constructor; [|constructor].
    string_field. rewrite with_slashes_plain; apply relative_plain, P.
Qed.
Lemma package_fields_read root p : fine_package plain p -> Forall field_reads (package_fields root p).
Proof.
  intros [N V T A R S]. unfold package_fields.
  constructor; [string_field; apply package_name_plain, N|].
  constructor; [string_field; apply show_plain, V|].
  constructor; [split; [bare_str|apply reads_array, T]|].
  constructor; [split; [bare_str|apply reads_array]; eapply Permutation_Forall; [apply sorted_by_perm|exact R]|].
  apply Forall_app. split; [|apply source_fields_read, S].
  destruct (otp_app p); constructor; [|constructor]. string_field. apply package_name_plain, A.
Qed.
Lemma requirement_fields_read root e : fine_requirement plain e -> Forall field_reads (requirement_fields root (snd e)).
Proof.
  intros [_ F]. destruct (snd e) as [g|p|g f p].
  - constructor; [|constructor]. string_field. apply F.
  - constructor; [|constructor]. string_field. destruct F as [P _]. rewrite with_slashes_plain; apply relative_plain, P.
  - destruct F as (G & R & P). constructor; [string_field; exact G|]. constructor; [string_field; exact R|].
    destruct p as [p|]; [|constructor]. constructor; [|constructor]. destruct P as [P _]. string_field. rewrite with_slashes_plain; exact P.
Qed.

Definition package_value (root : text) (p : package) : toml := Table (values (package_fields root p)).
Definition requirement_value (root : text) (r : requirement) : toml := Table (values (requirement_fields root r)).

Lemma all_str l : all (fun v => match v with Str s => Some s | _ => None end) (map Str l) = Some l.
Proof. induction l as [|s l IH]; [reflexivity|]. cbn. cbn in IH. rewrite IH. reflexivity. Qed.
Lemma parse_show v : legal_version v -> parse (show v) = Ok v.
Proof.
  intro L. rewrite <- (app_nil_l (show v)), <- (app_nil_r (show v)). apply parse_complete; auto; constructor.
Qed.
Lemma package_reads root p : fine_package plain p -> read_package (package_value root p) = Some (canon_package root p).
Proof.
  intros [N V T A R S]. destruct p as [n v tools oa ns src]. cbn [name at_version build_tools otp_app needs from] in *.
  unfold package_value, package_fields, canon_package. cbn [name at_version build_tools otp_app needs from].
  assert (parse (show v) = Ok v) as PV by (apply parse_show, V).
  apply package_name_valid in N.
  assert (match oa with Some a => is_valid_package_name a = true | None => True end) as PA
    by (destruct oa; [apply package_name_valid, A|exact I]).
  destruct oa as [a|], src as [c|r c [q|]|q]; cbn [fine_source] in S;
    unfold read_package, read_source, string_at, strings_at, optional, values, source_fields;
    cbn -[is_valid_package_name parse show validate_safe_relative_path base_16_decode base_16_encoded_string all sorted_by with_slashes make_relative];
    rewrite ?all_str, ?PA, ?N, ?PV, ?base_16_reads by exact S; try reflexivity;
    destruct S as (? & ? & Q & I); rewrite with_slashes_plain by exact Q; rewrite (inside_valid _ I); reflexivity.
Qed.
