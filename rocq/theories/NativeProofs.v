(** Proofs about copying native files. *)
From Coq Require Import NArith Arith Bool String List Lia Permutation.
From Verif Require Import Text TextProofs ResolveSpec ResolveProofs Native NativeSpec.
From Verif Require Resolve.
Import ListNotations.
Local Open Scope nat_scope.
Local Open Scope list_scope.

(** ** Paths *)
Lemma texts_eqb_eq a : forall b, texts_eqb a b = true <-> a = b.
Proof.
  induction a as [|x a IH]; intros [|y b]; cbn; try (split; congruence).
  rewrite andb_true_iff, text_eqb_eq, IH. split; [intros [-> ->]; auto|intros [= -> ->]; auto].
Qed.
Lemma path_eqb_eq p q : path_eqb p q = true <-> p = q.
Proof.
  unfold path_eqb. rewrite andb_true_iff, texts_eqb_eq, text_eqb_eq. destruct p, q. cbn.
  split; [intros [-> ->]; auto|intros [= -> ->]; auto].
Qed.
Lemma path_eqb_refl p : path_eqb p p = true.
Proof. now apply path_eqb_eq. Qed.
Lemma path_eqb_neq p q : path_eqb p q = false <-> p <> q.
Proof. rewrite <- path_eqb_eq. destruct (path_eqb p q); split; congruence. Qed.
Lemma path_dec (p q : path) : {p = q} + {p <> q}.
Proof. destruct (path_eqb p q) eqn:E; [left; now apply path_eqb_eq|right; now apply path_eqb_neq]. Qed.

Lemma rsplit_spec t : match rsplit_at_dot t with
  | Some (b, a) => t = b ++ 46%N :: a /\ ~ In 46%N a
  | None => ~ In 46%N t
  end.
Proof.
  induction t as [|c t IH]; cbn; auto. destruct (rsplit_at_dot t) as [[b a]|].
  - destruct IH as [-> N]. auto.
  - destruct (c =? 46)%N eqn:E; [apply N.eqb_eq in E; subst; auto|]. apply N.eqb_neq in E. intros [F|F]; auto.
Qed.
Lemma split_unique (x y a b : text) : ~ In 46%N a -> ~ In 46%N b -> x ++ 46%N :: a = y ++ 46%N :: b -> x = y /\ a = b.
Proof.
  revert y. induction x as [|c x IH]; intros [|d y] NA NB E; cbn in E.
  - injection E as ->. auto.
  - injection E as <- E. subst a. exfalso. apply NA, in_app_iff. right. now left.
  - injection E as -> E. subst b. exfalso. apply NB, in_app_iff. right. now left.
  - injection E as -> E. apply IH in E as [-> ->]; auto.
Qed.
Lemma rsplit_named b a : ~ In 46%N a -> rsplit_at_dot (b ++ 46%N :: a) = Some (b, a).
Proof.
  intros N. pose proof (rsplit_spec (b ++ 46%N :: a)) as S. destruct (rsplit_at_dot (b ++ 46%N :: a)) as [[b' a']|].
  - destruct S as [E N']. apply split_unique in E as [-> ->]; auto.
  - exfalso. apply S, in_app_iff. right. now left.
Qed.

Lemma named_stem ds stem ext p : named ds stem ext p -> directories p = ds /\ file_stem p = stem /\ extension p = Some ext.
Proof.
  intros (-> & NE & N). unfold file_stem, extension. cbn. rewrite rsplit_named by auto. destruct stem; [congruence|auto].
Qed.
Lemma extension_named p e : extension p = Some e -> named (directories p) (file_stem p) e p.
Proof.
  unfold extension, file_stem, named. pose proof (rsplit_spec (file_name p)) as S.
  destruct (rsplit_at_dot (file_name p)) as [[[|c b] a]|]; try discriminate. intros [= <-]. destruct S as [S N].
  split; [|split; [discriminate|exact N]]. destruct p. cbn in *. now rewrite S.
Qed.
Lemma has_extension_kind p e : has_extension p e = true <-> kind e p.
Proof.
  unfold has_extension, kind. split.
  - destruct (extension p) as [x|] eqn:E; [|discriminate]. intros T. apply text_eqb_eq in T. subst.
    apply extension_named in E. eauto.
  - intros (ds & stem & N). apply named_stem in N as (_ & _ & ->). apply text_eqb_refl.
Qed.
Lemma has_extension_not p e : has_extension p e = false <-> ~ kind e p.
Proof. rewrite <- has_extension_kind. destruct (has_extension p e); split; congruence. Qed.
Lemma kind_unique p e e' : kind e p -> kind e' p -> str e = str e'.
Proof.
  intros (ds & s & N) (ds' & s' & N'). apply named_stem in N as (_ & _ & N), N' as (_ & _ & N'). congruence.
Qed.
Lemma native_extension p : (match extension p with Some e => is_native_file_extension e | None => false end) = true <-> native p.
Proof.
  unfold native, is_native_file_extension. split.
  - destruct (extension p) as [e|] eqn:E; [|discriminate]. rewrite existsb_exists. intros (x & I & T). exists x. split; auto.
    apply has_extension_kind. unfold has_extension. now rewrite E.
  - intros (x & I & K). apply has_extension_kind in K. unfold has_extension in K. destruct (extension p); [|discriminate].
    apply existsb_exists. eauto.
Qed.
Lemma gleam_not_native p : kind "gleam" p -> ~ native p.
Proof.
  intros K (e & I & K'). pose proof (kind_unique _ _ _ K K') as E.
  cbn in I. repeat destruct I as [<-|I]; try discriminate. destruct I.
Qed.

Lemma join_joined s l : join s l = joined [s] l.
Proof.
  destruct l as [|t l]; auto. revert t. induction l as [|u l IH]; intros t; [cbn; now rewrite app_nil_r|].
  cbn [join joined map concat]. cbn [join] in IH. rewrite IH. now rewrite <- app_assoc.
Qed.
Lemma show_joined p : show p = joined (str "/") (directories p ++ [file_name p]).
Proof. apply join_joined. Qed.

Lemma joined_snoc s l t : l <> [] -> joined s (l ++ [t]) = joined s l ++ s ++ t.
Proof.
  destruct l as [|u l]; [congruence|]. intros _. cbn. rewrite map_app, concat_app. cbn. rewrite app_nil_r, app_assoc. reflexivity.
Qed.
Lemma joined_last s l t u : joined s (l ++ [t ++ u]) = joined s (l ++ [t]) ++ u.
Proof. destruct l as [|x l]; [cbn; now rewrite !app_nil_r|]. rewrite !joined_snoc by discriminate. now rewrite !app_assoc. Qed.

Lemma cut_first (c : N) a : forall b x y, ~ In c a -> ~ In c b -> a ++ c :: x = b ++ c :: y -> a = b /\ x = y.
Proof.
  induction a as [|d a IH]; intros [|e b] x y NA NB E; cbn in *.
  - injection E as ->. auto.
  - injection E as -> _. tauto.
  - injection E as -> _. tauto.
  - injection E as -> E. apply IH in E as [-> ->]; auto.
Qed.
Lemma joined_inj l : forall l', Forall (fun t => ~ In 47%N t) l -> Forall (fun t => ~ In 47%N t) l' -> l <> [] -> l' <> [] ->
  joined (str "/") l = joined (str "/") l' -> l = l'.
Proof.
  induction l as [|t l IH]; intros [|t' l'] F F' N N' E; try congruence. inversion_clear F. inversion_clear F'.
  destruct l as [|u l], l' as [|u' l']; cbn in E.
  - rewrite !app_nil_r in E. now subst.
  - rewrite app_nil_r in E. subst t. exfalso. apply H, in_app_iff. right. now left.
  - rewrite app_nil_r in E. subst t'. exfalso. apply H1, in_app_iff. right. now left.
  - change 47%N with 47%N in E. apply cut_first in E as [-> E]; auto. f_equal. apply IH; auto; discriminate.
Qed.
Lemma show_inj p q : proper p -> proper q -> show p = show q -> p = q.
Proof.
  intros [D N] [D' N'] E. rewrite !show_joined in E.
  assert (X : forall ds t, Forall name_of_file ds -> name_of_file t -> Forall (fun t => ~ In 47%N t) (ds ++ [t])).
  { intros ds t F [_ G]. apply Forall_app. split; [|auto]. eapply Forall_impl; [|exact F]. intros a [_ Ha]. exact Ha. }
  apply joined_inj in E; auto.
  - apply app_inj_tail in E as [E1 E2]. destruct p, q. cbn in *. now subst.
  - intros F. now apply app_eq_nil in F as [_ F].
  - intros F. now apply app_eq_nil in F as [_ F].
Qed.

Lemma replace_none a b t : ~ In a t -> replace a b t = t.
Proof.
  unfold replace. induction t as [|c t IH]; cbn; auto. intros N. rewrite IH by tauto.
  destruct (c =? a)%N eqn:E; auto. apply N.eqb_eq in E. subst. tauto.
Qed.
Lemma replace_app a b x y : replace a b (x ++ y) = replace a b x ++ replace a b y.
Proof. apply map_app. Qed.
Lemma replace_joined l : Forall (fun t => ~ In 47%N t) l -> replace 47 64 (joined (str "/") l) = joined (str "@") l.
Proof.
  intros F. destruct l as [|t l]; auto. inversion_clear F. cbn [joined]. rewrite replace_app, replace_none by auto. f_equal.
  induction l as [|u l IH]; auto. inversion_clear H0. cbn [map concat]. rewrite !replace_app, IH by auto.
  rewrite (replace_none _ _ u) by auto. reflexivity.
Qed.

(** ** Keys *)
Lemma named_proper ds stem ext ext' p : proper p -> named ds stem ext p -> ~ In 47%N ext' ->
  proper (Path ds (stem ++ 46%N :: ext')).
Proof.
  intros [D [_ N]] (-> & NE & _) X. split; auto. split; [destruct stem; discriminate|]. cbn [file_name] in N |- *. rewrite in_app_iff in N |- *. cbn [In] in N |- *.
  intros [I|[I|I]]; [tauto|discriminate|tauto].
Qed.
Lemma javascript_key_spec check p k : javascript_key p = Some k <->
  exists q, makes check p (JavaScript q) /\ k = show q.
Proof.
  unfold javascript_key. destruct (has_extension p "gleam") eqn:G; [|destruct (has_extension p "mjs") eqn:M].
  - apply has_extension_kind in G. split.
    + intros [= <-]. destruct G as (ds & stem & N). eexists. split; [now apply makes_gleam_mjs with (1 := N)|].
      apply named_stem in N as (<- & <- & _). reflexivity.
    + intros (q & Mk & ->). inversion Mk as [|? K|ds stem ? N| |]; subst.
      * pose proof (kind_unique _ _ _ G K). discriminate.
      * apply named_stem in N as (<- & <- & _). reflexivity.
  - apply has_extension_not in G. apply has_extension_kind in M. split.
    + intros [= <-]. exists p. split; auto. now constructor.
    + intros (q & Mk & ->). inversion Mk as [|? K|ds stem ? N| |]; subst; auto. exfalso. apply G. exists ds, stem. auto.
  - apply has_extension_not in G, M. split; [discriminate|]. intros (q & Mk & ->).
    inversion Mk as [|? K|ds stem ? N| |]; subst; [tauto|]. exfalso. apply G. exists ds, stem. auto.
Qed.
Lemma erlang_key_spec check p k : proper p -> (erlang_key check p = Some k <->
  exists m, makes check p (Erlang m) /\ k = m ++ str ".erl").
Proof.
  intros P. unfold erlang_key. destruct (has_extension p "erl") eqn:E; [|destruct (has_extension p "gleam") eqn:G; [destruct check|]]; cbn [andb].
  - apply has_extension_kind in E. split.
    + intros [= <-]. destruct E as (ds & stem & N). exists stem. split; [econstructor; eauto|]. destruct N as [-> _]. reflexivity.
    + intros (m & Mk & ->). inversion Mk as [| | |ds stem ? N|ds stem ? C N]; subst.
      * destruct N as [-> _]. reflexivity.
      * assert (K : kind "gleam" p) by (exists ds, stem; auto). pose proof (kind_unique _ _ _ E K). discriminate.
  - apply has_extension_not in E. apply has_extension_kind in G.
    assert (X : forall ds stem, named ds stem (str "gleam") p ->
      replace 47 64 (show (with_extension p (str "erl"))) = joined (str "@") (ds ++ [stem]) ++ str ".erl").
    { intros ds stem N. rewrite show_joined. pose proof (named_proper _ _ _ (str "erl") _ P N) as [PD [_ PN]]; [now intros [|[|[|[]]]]|].
      apply named_stem in N as (<- & <- & _). cbn [directories file_name with_extension] in *.
      rewrite replace_joined.
      - rewrite <- joined_last. reflexivity.
      - apply Forall_app. split; [|auto]. eapply Forall_impl; [|exact PD]. intros a [_ A]. exact A. }
    split.
    + intros [= <-]. destruct G as (ds & stem & N). exists (joined (str "@") (ds ++ [stem])). split; [now apply makes_gleam_erl|]. now apply X.
    + intros (m & Mk & ->). inversion Mk as [| | |ds stem ? N|ds stem ? C N]; subst.
      * exfalso. apply E. exists ds, m. auto.
      * f_equal. now apply X.
  - apply has_extension_not in E. split; [discriminate|]. intros (m & Mk & _). inversion Mk as [| | |ds stem ? N|ds stem ? C N]; subst; [|discriminate].
    exfalso. apply E. exists ds, m. auto.
  - apply has_extension_not in E, G. split; [discriminate|]. intros (m & Mk & _). inversion Mk as [| | |ds stem ? N|ds stem ? C N]; subst.
    + exfalso. apply E. exists ds, m. auto.
    + exfalso. apply G. exists ds, stem. auto.
Qed.

Lemma made_proper check p q : proper p -> makes check p (JavaScript q) -> proper q.
Proof.
  intros P M. inversion M; subst; auto. eapply (named_proper ds stem (str "gleam") (str "mjs")); eauto. now intros [|[|[|[]]]].
Qed.
Lemma made_mjs check p q : makes check p (JavaScript q) -> exists t, show q = t ++ str ".mjs".
Proof.
  intros M. rewrite show_joined. inversion M as [|? (ds & stem & -> & _)|ds stem ? N| |]; subst; cbn [directories file_name].
  - change (stem ++ 46%N :: str "mjs") with (stem ++ str ".mjs"). rewrite joined_last. eauto.
  - rewrite joined_last. eauto.
Qed.
Lemma keys_differ check p q k : proper p -> proper q -> javascript_key p = Some k -> erlang_key check q = Some k -> False.
Proof.
  intros P Q J E. apply (javascript_key_spec check) in J as (r & M & ->). apply made_mjs in M as (t & T).
  apply erlang_key_spec in E as (m & _ & E); auto. rewrite T in E.
  change (str ".mjs") with (str ".mj" ++ [115%N]) in E. change (str ".erl") with (str ".er" ++ [108%N]) in E.
  rewrite !app_assoc in E. apply app_inj_tail in E as [_ E]. discriminate.
Qed.
Lemma same_javascript check p q k : proper p -> proper q -> javascript_key p = Some k -> javascript_key q = Some k ->
  exists r, makes check p (JavaScript r) /\ makes check q (JavaScript r).
Proof.
  intros P Q J J'. apply (javascript_key_spec check) in J as (r & M & ->), J' as (r' & M' & E).
  apply show_inj in E; [|exact (made_proper check _ _ P M)|exact (made_proper check _ _ Q M')]. subst. eauto.
Qed.
Lemma same_erlang check p q k : proper p -> proper q -> erlang_key check p = Some k -> erlang_key check q = Some k ->
  exists m, makes check p (Erlang m) /\ makes check q (Erlang m).
Proof.
  intros P Q J J'. apply erlang_key_spec in J as (r & M & ->), J' as (r' & M' & E); auto.
  apply app_inv_tail in E. subst. eauto.
Qed.

(** ** Checks *)
Definition saw (check : bool) (done : list file) (c : copier) : Prop :=
  (forall p, In p (seen_native_files c) <-> native p /\ exists f, In f done /\ relative f = p)
  /\ forall k p, Resolve.get k (seen_modules c) = Some p <->
       (javascript_key p = Some k \/ erlang_key check p = Some k) /\ exists f, In f done /\ relative f = p.

Definition same_rest (c c' : copier) : Prop :=
  to_compile c' = to_compile c /\ elixir_files_copied c' = elixir_files_copied c /\ destination c' = destination c.

Lemma check_module (key : option text) p c (wrong : path -> error) :
  match (match key with
         | None => inl c
         | Some key => match Resolve.get key (seen_modules c) with
                       | None => inl (saw_module key p c)
                       | Some existing => inr (wrong existing)
                       end
         end) with
  | inl c' => (forall k, key = Some k -> Resolve.get k (seen_modules c) = None)
      /\ seen_native_files c' = seen_native_files c /\ same_rest c c'
      /\ forall k q, Resolve.get k (seen_modules c') = Some q <-> Resolve.get k (seen_modules c) = Some q \/ key = Some k /\ q = p
  | inr e => exists k existing, key = Some k /\ Resolve.get k (seen_modules c) = Some existing /\ e = wrong existing
  end.
Proof.
  destruct key as [key|].
  - destruct (Resolve.get key (seen_modules c)) as [ex|] eqn:G.
    + exists key, ex. auto.
    + split; [intros k [= <-]; auto|]. split; [reflexivity|]. split; [repeat split|]. intros k q. cbn [saw_module seen_modules]. rewrite get_insert.
      destruct (text_eqb key k) eqn:E.
      * apply text_eqb_eq in E. subst. rewrite G. split; [intros [= <-]; auto|intros [F|[_ ->]]; [discriminate|auto]].
      * apply text_eqb_neq in E. split; [auto|intros [F|[F _]]; [auto|congruence]].
  - split; [discriminate|]. split; [reflexivity|]. split; [repeat split|]. intros k q. split; [auto|intros [F|[F _]]; [auto|discriminate]].
Qed.

Lemma joined_stem p : show (with_extension p []) = joined (str "/") (directories p ++ [file_stem p]).
Proof. rewrite show_joined. unfold with_extension. cbn [directories file_name]. now rewrite app_nil_r. Qed.

Lemma clash_reported check g n p q : kind "gleam" g -> (p = g /\ q = n) \/ (p = n /\ q = g) -> reported check (clash g n) p q.
Proof.
  intros (ds & stem & N) H. unfold clash. rewrite joined_stem. pose proof N as N'. apply named_stem in N' as (-> & -> & _).
  econstructor; eauto.
Qed.

Lemma not_gleam_key p k : ~ kind "gleam" p -> javascript_key p = Some k -> kind "mjs" p /\ k = show p.
Proof.
  unfold javascript_key. intros N. apply has_extension_not in N. rewrite N. destruct (has_extension p "mjs") eqn:M; [|discriminate].
  intros [= <-]. split; auto. now apply has_extension_kind.
Qed.
Lemma not_gleam_erlang check p k : ~ kind "gleam" p -> erlang_key check p = Some k -> kind "erl" p /\ k = file_name p.
Proof.
  unfold erlang_key. intros N. apply has_extension_not in N. rewrite N. destruct (has_extension p "erl") eqn:M; [|discriminate].
  intros [= <-]. split; auto. now apply has_extension_kind.
Qed.
Lemma kind_dec e p : kind e p \/ ~ kind e p.
Proof. destruct (has_extension p e) eqn:E; [left; now apply has_extension_kind|right; now apply has_extension_not]. Qed.

Lemma key_conflict check f p k : proper (relative f) -> proper p ->
  (javascript_key (relative f) = Some k \/ erlang_key check (relative f) = Some k) ->
  (javascript_key p = Some k \/ erlang_key check p = Some k) ->
  exists o, makes check (relative f) o /\ makes check p o.
Proof.
  intros P Q [A|A] [B|B].
  - destruct (same_javascript check _ _ _ P Q A B) as (r & M). eexists. exact M.
  - exfalso. apply (keys_differ check (relative f) p k); auto.
  - exfalso. apply (keys_differ check p (relative f) k); auto.
  - destruct (same_erlang check _ _ _ P Q A B) as (r & M). eexists. exact M.
Qed.

(** Errors of both checks. *)
Lemma javascript_reported check done c p k existing : well_named done -> proper p -> saw check done c ->
  javascript_key p = Some k -> Resolve.get k (seen_modules c) = Some existing ->
  exists f, In f done /\ relative f = existing /\ (exists o, makes check existing o /\ makes check p o)
  /\ reported check (if has_extension existing "gleam" then clash existing p
                     else if has_extension p "gleam" then clash p existing
                     else if path_eqb existing p then DuplicateSourceFile (show existing) else Panic) existing p.
Proof.
  intros W P [_ S] K G. apply S in G as (KE & f & I & E). exists f. split; auto. split; auto.
  assert (PE : proper existing) by (subst; unfold well_named in W; rewrite Forall_forall in W; now apply W).
  split. { subst. eapply (key_conflict check f p k); eauto. }
  destruct KE as [KE|KE]; [|exfalso; apply (keys_differ check p existing k); auto].
  destruct (has_extension existing "gleam") eqn:G1.
  { apply has_extension_kind in G1. apply clash_reported; auto. }
  destruct (has_extension p "gleam") eqn:G2.
  { apply has_extension_kind in G2. apply clash_reported; auto. }
  apply has_extension_not in G1, G2. apply not_gleam_key in K as [K1 K2], KE as [K3 K4]; auto.
  rewrite K2 in K4. apply show_inj in K4; auto. subst. rewrite path_eqb_refl, show_joined. constructor.
  exists "mjs"%string. split; auto. cbn. tauto.
Qed.

Lemma erlang_reported check done c p k existing : well_named done -> proper p -> saw check done c ->
  erlang_key check p = Some k -> Resolve.get k (seen_modules c) = Some existing ->
  exists f, In f done /\ relative f = existing /\ (exists o, makes check existing o /\ makes check p o)
  /\ reported check (if has_extension existing "gleam" then clash existing p
                     else if has_extension p "gleam" then clash p existing
                     else DuplicateNativeErlangModule (file_stem p) existing p) existing p.
Proof.
  intros W P [_ S] K G. apply S in G as (KE & f & I & E). exists f. split; auto. split; auto.
  assert (PE : proper existing) by (subst; unfold well_named in W; rewrite Forall_forall in W; now apply W).
  split. { subst. eapply (key_conflict check f p k); eauto. }
  destruct KE as [KE|KE]; [exfalso; apply (keys_differ check existing p k); auto|].
  destruct (has_extension existing "gleam") eqn:G1.
  { apply has_extension_kind in G1. apply clash_reported; auto. }
  destruct (has_extension p "gleam") eqn:G2.
  { apply has_extension_kind in G2. apply clash_reported; auto. }
  apply has_extension_not in G1, G2. apply not_gleam_erlang in K as [K1 K2], KE as [K3 K4]; auto.
  destruct K1 as (ds & stem & N), K3 as (ds' & stem' & N'). pose proof N as M. apply named_stem in M as (_ & -> & _).
  assert (stem' = stem) as ->.
  { destruct N as (-> & _ & X), N' as (-> & _ & X'). cbn in *. rewrite K2 in K4. apply split_unique in K4; intuition. }
  econstructor; eauto.
Qed.

(** One file. *)
Definition step_effect (now : N) (f : file) (c c' : copier) : Prop :=
  (native (relative f) /\ exists c0, same_rest c c0 /\ to_compile c' = to_compile (copy_to_destination now f c0)
     /\ elixir_files_copied c' = elixir_files_copied (copy_to_destination now f c0)
     /\ destination c' = destination (copy_to_destination now f c0))
  \/ ~ native (relative f) /\ same_rest c c'.

Lemma same_rest_trans a b c : same_rest a b -> same_rest b c -> same_rest a c.
Proof. intros (A & B & C) (D & E & F). repeat split; congruence. Qed.

Lemma copy_keeps now f c : seen_native_files (copy_to_destination now f c) = seen_native_files c
  /\ seen_modules (copy_to_destination now f c) = seen_modules c.
Proof. unfold copy_to_destination. now destruct (match lookup _ _ with Some _ => _ | None => _ end). Qed.

Lemma saw_free check done c p : well_named done -> proper p -> saw check done c ->
  (native p -> ~ In p (seen_native_files c)) ->
  (forall k, javascript_key p = Some k -> Resolve.get k (seen_modules c) = None) ->
  (forall k, erlang_key check p = Some k -> Resolve.get k (seen_modules c) = None) ->
  forall f, In f done -> ~ exists o, makes check (relative f) o /\ makes check p o.
Proof.
  intros W P [S1 S2] N J E f I (o & M1 & M2).
  assert (PF : proper (relative f)) by (unfold well_named in W; rewrite Forall_forall in W; now apply W).
  destruct o as [q|q|m].
  - inversion M1; inversion M2; subst. apply N; auto. apply S1. split; eauto.
  - assert (JF : javascript_key (relative f) = Some (show q)) by (apply (javascript_key_spec check); eauto).
    assert (JP : javascript_key p = Some (show q)) by (apply (javascript_key_spec check); eauto).
    apply J in JP. assert (G : Resolve.get (show q) (seen_modules c) = Some (relative f)) by (apply S2; eauto). congruence.
  - assert (JF : erlang_key check (relative f) = Some (m ++ str ".erl")) by (apply erlang_key_spec; eauto).
    assert (JP : erlang_key check p = Some (m ++ str ".erl")) by (apply erlang_key_spec; eauto).
    apply E in JP. assert (G : Resolve.get (m ++ str ".erl") (seen_modules c) = Some (relative f)) by (apply S2; eauto). congruence.
Qed.

Lemma saw_both check done f c c1 c2 : saw check done c ->
  (forall k q, Resolve.get k (seen_modules c1) = Some q <-> Resolve.get k (seen_modules c) = Some q \/ javascript_key (relative f) = Some k /\ q = relative f) ->
  (forall k q, Resolve.get k (seen_modules c2) = Some q <-> Resolve.get k (seen_modules c1) = Some q \/ erlang_key check (relative f) = Some k /\ q = relative f) ->
  forall k q, Resolve.get k (seen_modules c2) = Some q <->
    (javascript_key q = Some k \/ erlang_key check q = Some k) /\ exists g, In g (done ++ [f]) /\ relative g = q.
Proof.
  intros [_ S] A B k q. rewrite B, A, S. split.
  - intros [[(K & g & I & E)|[K ->]]|[K ->]].
    + split; auto. exists g. split; auto. apply in_app_iff. auto.
    + split; auto. exists f. split; auto. apply in_app_iff. cbn. auto.
    + split; auto. exists f. split; auto. apply in_app_iff. cbn. auto.
  - intros (K & g & I & E). apply in_app_iff in I as [I|[<-|[]]].
    + left. left. split; eauto.
    + subst q. destruct K; auto.
Qed.

Lemma copy_spec check now done f c : well_named done -> proper (relative f) -> saw check done c ->
  match copy check now f c with
  | inl c' => (forall g, In g done -> ~ conflict check g f) /\ saw check (done ++ [f]) c' /\ step_effect now f c c'
  | inr e => exists g, In g done /\ conflict check g f /\ reported check e (relative g) (relative f)
  end.
Proof.
  intros W P S. unfold copy. set (p := relative f).
  destruct (has_extension p "gleam") eqn:G.
  - apply has_extension_kind in G. pose proof (gleam_not_native _ G) as NN.
    pose proof (check_module (javascript_key p) p c (fun existing =>
      if has_extension existing "gleam" then clash existing p
      else if has_extension p "gleam" then clash p existing
      else if path_eqb existing p then DuplicateSourceFile (show existing) else Panic)) as CJ.
    cbv beta in CJ. fold (check_for_conflicting_javascript_modules p c) in CJ.
    destruct (check_for_conflicting_javascript_modules p c) as [c1|e].
    2: { destruct CJ as (k & ex & K & GE & ->). destruct (javascript_reported check done c p k ex W P S K GE) as (g & I & <- & C & R).
         exists g. auto. }
    destruct CJ as (J0 & J1 & J2 & J3).
    pose proof (check_module (erlang_key check p) p c1 (fun existing =>
      if has_extension existing "gleam" then clash existing p
      else if has_extension p "gleam" then clash p existing
      else DuplicateNativeErlangModule (file_stem p) existing p)) as CE.
    cbv beta in CE. fold (check_for_conflicting_erlang_modules check p c1) in CE.
    destruct (check_for_conflicting_erlang_modules check p c1) as [c2|e].
    2: { destruct CE as (k & ex & K & GE & ->). apply J3 in GE as [GE|[KJ _]].
         - destruct (erlang_reported check done c p k ex W P S K GE) as (g & I & <- & C & R). exists g. auto.
         - exfalso. eapply (keys_differ check p p k); eauto. }
    destruct CE as (E0 & E1 & E2 & E3). split; [|split].
    + intros g I. refine (saw_free check done c p W P S (fun N => False_ind _ (NN N)) J0 _ g I).
      intros k K. destruct (Resolve.get k (seen_modules c)) as [ex|] eqn:X; auto. exfalso.
      specialize (E0 k K). assert (Y : Resolve.get k (seen_modules c1) = Some ex) by (apply J3; auto). congruence.
    + split; [|now apply (saw_both check done f c c1 c2)]. intros q. rewrite E1, J1. destruct S as [S _]. rewrite S. split.
      * intros (N & g & I & E). split; auto. exists g. split; auto. apply in_app_iff. auto.
      * intros (N & g & I & E). split; auto. apply in_app_iff in I as [I|[<-|[]]]; eauto. subst q. tauto.
    + right. split; auto. eapply same_rest_trans; eauto.
  - apply has_extension_not in G.
    destruct (match extension p with Some e => is_native_file_extension e | None => false end) eqn:X.
    2: { assert (NN : ~ native p) by (rewrite <- native_extension; congruence).
         assert (KJ : javascript_key p = None).
         { destruct (javascript_key p) as [k|] eqn:K; auto. apply not_gleam_key in K as [K _]; auto. exfalso. apply NN. exists "mjs"%string. cbn. tauto. }
         assert (KE : erlang_key check p = None).
         { destruct (erlang_key check p) as [k|] eqn:K; auto. apply not_gleam_erlang in K as [K _]; auto. exfalso. apply NN. exists "erl"%string. cbn. tauto. }
         split; [|split].
         - intros g I. apply (saw_free check done c p W P S); auto; try tauto; intros k K; congruence.
         - destruct S as [S1 S2]. split.
           + intros q. rewrite S1. split.
             * intros (N & g & I & E). split; auto. exists g. split; auto. apply in_app_iff. auto.
             * intros (N & g & I & E). split; auto. apply in_app_iff in I as [I|[<-|[]]]; eauto. subst q. tauto.
           + intros k q. rewrite S2. split.
             * intros (N & g & I & E). split; auto. exists g. split; auto. apply in_app_iff. auto.
             * intros (N & g & I & E). split; auto. apply in_app_iff in I as [I|[<-|[]]]; eauto. subst q. fold p in N.
               rewrite KJ, KE in N. destruct N; discriminate.
         - right. split; auto. repeat split. }
    apply native_extension in X. unfold check_for_duplicate.
    destruct (existsb (path_eqb p) (seen_native_files c)) eqn:D.
    { apply existsb_exists in D as (q & I & E). apply path_eqb_eq in E. subst q.
      apply S in I as (_ & g & I & E). exists g. split; auto. split.
      - exists (Itself p). rewrite E. split; now constructor.
      - rewrite E, show_joined. now constructor. }
    assert (ND : ~ In p (seen_native_files c)).
    { intros I. assert (existsb (path_eqb p) (seen_native_files c) = true); [|congruence]. apply existsb_exists. exists p. split; auto. apply path_eqb_refl. }
    set (c0 := Copier (p :: seen_native_files c) _ _ _ _).
    pose proof (check_module (javascript_key p) p c0 (fun existing =>
      if has_extension existing "gleam" then clash existing p
      else if has_extension p "gleam" then clash p existing
      else if path_eqb existing p then DuplicateSourceFile (show existing) else Panic)) as CJ.
    cbv beta in CJ. fold (check_for_conflicting_javascript_modules p c0) in CJ.
    destruct (check_for_conflicting_javascript_modules p c0) as [c1|e].
    2: { destruct CJ as (k & ex & K & GE & ->). destruct (javascript_reported check done c p k ex W P S K GE) as (g & I & <- & C & R).
         exists g. auto. }
    destruct CJ as (J0 & J1 & J2 & J3).
    pose proof (check_module (erlang_key check p) p c1 (fun existing =>
      if has_extension existing "gleam" then clash existing p
      else if has_extension p "gleam" then clash p existing
      else DuplicateNativeErlangModule (file_stem p) existing p)) as CE.
    cbv beta in CE. fold (check_for_conflicting_erlang_modules check p c1) in CE.
    destruct (check_for_conflicting_erlang_modules check p c1) as [c2|e].
    2: { destruct CE as (k & ex & K & GE & ->). apply J3 in GE as [GE|[KJ _]].
         - destruct (erlang_reported check done c p k ex W P S K GE) as (g & I & <- & C & R). exists g. auto.
         - exfalso. eapply (keys_differ check p p k); eauto. }
    destruct CE as (E0 & E1 & E2 & E3). destruct (copy_keeps now f c2) as [K1 K2]. split; [|split].
    + intros g I. apply (saw_free check done c p W P S); auto.
      intros k K. destruct (Resolve.get k (seen_modules c)) as [ex|] eqn:Y; auto. exfalso.
      specialize (E0 k K). assert (Z : Resolve.get k (seen_modules c1) = Some ex) by (apply J3; auto). congruence.
    + split.
      * intros q. rewrite K1, E1, J1. cbn [c0 seen_native_files In]. destruct S as [S _]. rewrite S. split.
        -- intros [<-|(N & g & I & E)]; split; auto.
           ++ exists f. split; auto. apply in_app_iff. cbn. auto.
           ++ exists g. split; auto. apply in_app_iff. auto.
        -- intros (N & g & I & E). apply in_app_iff in I as [I|[<-|[]]]; eauto.
      * rewrite K2. now apply (saw_both check done f c c1 c2).
    + left. split; auto. exists c2. split; auto. eapply same_rest_trans; [|exact E2]. eapply same_rest_trans; [|exact J2]. repeat split.
Qed.
