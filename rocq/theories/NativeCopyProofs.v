(** Proofs about copying native files: what is copied, and builds one after another. *)
From Coq Require Import NArith Arith Bool String List Lia Permutation Sorted.
From Verif Require Import Text TextProofs VersionProofs PackagesProofs ResolveSpec ResolveProofs Native NativeSpec NativeProofs.
From Verif Require Resolve.
Import ListNotations.
Local Open Scope nat_scope.
Local Open Scope list_scope.

Lemma lookup_in p x l : lookup p l = Some x -> In (p, x) l.
Proof.
  induction l as [|[q y] l IH]; cbn; [discriminate|]. destruct (path_eqb p q) eqn:E; auto.
  apply path_eqb_eq in E. subst. intros [= ->]. auto.
Qed.
Lemma lookup_iff p x l : NoDup (map fst l) -> (lookup p l = Some x <-> In (p, x) l).
Proof.
  intros N. split; [apply lookup_in|]. induction l as [|[q y] l IH]; cbn in *; [tauto|]. inversion_clear N. intros [[= -> ->]|I].
  - now rewrite path_eqb_refl.
  - destruct (path_eqb p q) eqn:E; auto. apply path_eqb_eq in E. subst. exfalso. apply H. apply in_map_iff. exists (q, x). auto.
Qed.
Lemma lookup_none p l : lookup p l = None -> forall x, ~ In (p, x) l.
Proof.
  induction l as [|[q y] l IH]; cbn; [tauto|]. destruct (path_eqb p q) eqn:E; [discriminate|]. apply path_eqb_neq in E.
  intros H x [[= -> _]|I]; [congruence|]. now apply (IH H x).
Qed.
Lemma in_put {A} p (x : A) (l : list (path * A)) q y : In (q, y) ((p, x) :: filter (fun '(q, _) => negb (path_eqb p q)) l) <->
  (q = p /\ y = x) \/ q <> p /\ In (q, y) l.
Proof.
  cbn. rewrite filter_In. rewrite negb_true_iff, path_eqb_neq. split.
  - intros [[= -> ->]|[I N]]; auto.
  - intros [[-> ->]|[N I]]; auto.
Qed.
Lemma nodup_put {A} p (x : A) (l : list (path * A)) : NoDup (map fst l) -> NoDup (map fst ((p, x) :: filter (fun '(q, _) => negb (path_eqb p q)) l)).
Proof.
  intros N. cbn. constructor.
  - rewrite in_map_iff. intros ([q y] & E & I). cbn in E. subst. apply filter_In in I as [_ I]. now rewrite path_eqb_refl in I.
  - induction l as [|[q y] l IH]; cbn; [constructor|]. cbn in N. inversion_clear N. destruct (path_eqb p q); cbn; auto.
    constructor; auto. rewrite in_map_iff. intros ([q' y'] & E & I). cbn in E. subst. apply filter_In in I as [I _].
    apply H, in_map_iff. exists (q, y'). auto.
Qed.

Lemma beam_native p : beam p -> native p.
Proof. intros [K|K]; [exists "erl"%string|exists "ex"%string]; cbn; tauto. Qed.
Lemma beam_test p : has_extension p "erl" || has_extension p "ex" = true <-> beam p.
Proof. now rewrite orb_true_iff, !has_extension_kind. Qed.

Definition effect (now : N) (done : list file) (d : files) (c : copier) : Prop :=
  copied now done d (destination c)
  /\ NoDup (to_compile c)
  /\ (forall p, In p (to_compile c) <-> beam p /\ exists f, In f done /\ outdated d f /\ relative f = p)
  /\ (elixir_files_copied c = true <-> exists f, In f done /\ outdated d f /\ kind "ex" (relative f)).

Lemma effect_new now d : NoDup (map fst d) -> effect now [] d (new d).
Proof.
  intros N. split; [split; auto|split; [constructor|split]].
  - intros p x t. split; [intros I; right; split; auto; now intros (f & [] & _)|intros [(f & [] & _)|[I _]]; auto].
  - intros p. cbn. split; [tauto|intros (_ & f & [] & _)].
  - cbn. split; [discriminate|intros (f & [] & _)].
Qed.

Lemma effect_skip now done d c c' f : effect now done d c -> same_rest c c' -> ~ (native (relative f) /\ outdated d f) ->
  effect now (done ++ [f]) d c'.
Proof.
  intros ((N & D) & TN & T & X) (E1 & E2 & E3) S. unfold effect. rewrite E1, E2, E3.
  assert (O : forall g, In g (done ++ [f]) -> native (relative g) -> outdated d g -> In g done).
  { intros g I NG OG. apply in_app_iff in I as [I|[<-|[]]]; tauto. }
  assert (O' : forall g, In g done -> In g (done ++ [f])) by (intros; apply in_app_iff; auto).
  split; [split; auto|split; [auto|split]].
  - intros p x t. rewrite D. split.
    + intros [(g & I & R)|[I R]]; [left; exists g; auto|]. right. split; auto. intros (g & Ig & NG & OG & E). apply R. exists g. auto.
    + intros [(g & I & NG & OG & R)|[I R]]; [left; exists g; auto 6|]. right. split; auto. intros (g & Ig & Rg). apply R. exists g. auto.
  - intros p. rewrite T. split.
    + intros (B & g & I & R). split; auto. exists g. auto.
    + intros (B & g & I & OG & <-). split; auto. exists g. split; auto. apply O; auto. now apply beam_native.
  - rewrite X. split.
    + intros (g & I & R). exists g. auto.
    + intros (g & I & OG & K). exists g. split; auto. apply O; auto. apply beam_native. now right.
Qed.

Lemma effect_step now check done d c c' f : effect now done d c -> step_effect now f c c' ->
  (forall g, In g done -> ~ conflict check g f) -> effect now (done ++ [f]) d c'.
Proof.
  intros E S NC. destruct S as [(NF & c0 & (R1 & R2 & R3) & E1 & E2 & E3)|[NF R]].
  2: { eapply effect_skip; eauto. tauto. }
  pose proof E as ((N & D) & TN & T & X).
  assert (NR : forall g, In g done -> native (relative g) -> relative g <> relative f).
  { intros g I _ EQ. apply (NC g I). exists (Itself (relative f)). rewrite EQ. split; now constructor. }
  assert (SAME : forall x t, In (relative f, (x, t)) (destination c) <-> In (relative f, (x, t)) d).
  { intros x t. rewrite D. split.
    - intros [(g & I & NG & _ & EQ & _)|[I _]]; auto. exfalso. now apply (NR g).
    - intros I. right. split; auto. intros (g & Ig & NG & _ & EQ). now apply (NR g). }
  unfold copy_to_destination in E1, E2, E3. rewrite R3 in E1, E2, E3.
  destruct (match lookup (relative f) (destination c) with Some (_, t) => (modified f <=? t)%N | None => false end) eqn:L.
  - apply (effect_skip now done d c); auto.
    + repeat split; congruence.
    + intros [_ O]. destruct (lookup (relative f) (destination c)) as [[x t]|] eqn:K; [|discriminate].
      apply lookup_in in K. apply SAME in K. apply O in K. apply N.leb_le in L. lia.
  - cbn [to_compile elixir_files_copied destination] in E1, E2, E3. rewrite R1 in E1. rewrite R2 in E2.
    assert (O : outdated d f).
    { intros x t I. apply SAME in I. apply lookup_iff in I; auto. rewrite I in L. apply N.leb_gt in L. exact L. }
    assert (O' : forall g, In g done -> In g (done ++ [f])) by (intros; apply in_app_iff; auto).
    assert (OF : In f (done ++ [f])) by (apply in_app_iff; cbn; auto).
    split; [split|split; [|split]].
    + rewrite E3. unfold put. now apply nodup_put.
    + intros p x t. rewrite E3. unfold put. rewrite in_put. rewrite D. split.
      * intros [[-> [= -> ->]]|[NE [(g & I & R)|[I R]]]].
        -- left. exists f. auto 6.
        -- left. exists g. intuition auto.
        -- right. split; auto. intros (g & Ig & NG & OG & EQ). apply in_app_iff in Ig as [Ig|[<-|[]]]; [|congruence]. apply R. eauto.
      * intros [(g & I & NG & OG & <- & <- & <-)|[I R]].
        -- apply in_app_iff in I as [I|[<-|[]]]; auto. right. split; [now apply NR|]. left. exists g. auto 6.
        -- destruct (path_dec p (relative f)) as [->|NE]; [exfalso; apply R; exists f; auto|]. right. split; auto.
           right. split; auto. intros (g & Ig & Rg). apply R. exists g. auto.
    + rewrite E1. destruct (has_extension (relative f) "erl" || has_extension (relative f) "ex"); auto.
      apply (Permutation_NoDup (l := relative f :: to_compile c)); [apply Permutation_cons_append|]. constructor; auto.
      rewrite T. intros (B & g & I & _ & EQ). apply (NR g I); auto. rewrite EQ. now apply beam_native.
    + intros p. rewrite E1. destruct (has_extension (relative f) "erl" || has_extension (relative f) "ex") eqn:B.
      * apply beam_test in B. rewrite in_app_iff, T. cbn. split.
        -- intros [(Bp & g & I & R)|[<-|[]]]; split; auto; [exists g; auto|exists f; auto].
        -- intros (Bp & g & I & OG & <-). apply in_app_iff in I as [I|[<-|[]]]; auto. left. split; auto. exists g. auto.
      * rewrite T. split.
        -- intros (Bp & g & I & R). split; auto. exists g. auto.
        -- intros (Bp & g & I & OG & <-). split; auto. apply in_app_iff in I as [I|[<-|[]]]; [exists g; auto|].
           apply beam_test in Bp. congruence.
    + rewrite E2, orb_true_iff, X, has_extension_kind. split.
      * intros [(g & I & R)|K]; [exists g; auto|exists f; auto].
      * intros (g & I & OG & K). apply in_app_iff in I as [I|[<-|[]]]; auto. left. exists g. auto.
Qed.

Lemma free_snoc check done f : conflict_free check done -> (forall g, In g done -> ~ conflict check g f) -> conflict_free check (done ++ [f]).
Proof.
  intros F N. induction F as [|g done G F IH]; cbn.
  - constructor; constructor.
  - constructor; [|apply IH; intros; apply N; now right]. apply Forall_app. split; auto. constructor; [|constructor]. apply N. now left.
Qed.

Lemma copy_files_spec check now d l : forall done c, well_named done -> well_named l -> saw check done c -> conflict_free check done ->
  effect now done d c ->
  match copy_files check now l c with
  | (c', None) => conflict_free check (done ++ l) /\ effect now (done ++ l) d c'
  | (c', Some e) => exists a f b g, l = a ++ g :: b /\ In f (done ++ a) /\ conflict check f g /\ reported check e (relative f) (relative g)
      /\ conflict_free check (done ++ a) /\ effect now (done ++ a) d c'
  end.
Proof.
  induction l as [|f l IH]; intros done c WD WL S F E; cbn [copy_files].
  - rewrite app_nil_r. auto.
  - inversion_clear WL. pose proof (copy_spec check now done f c WD H S) as C. destruct (copy check now f c) as [c'|e].
    + destruct C as (NC & S' & SE). specialize (IH (done ++ [f]) c').
      assert (WD' : well_named (done ++ [f])) by (apply Forall_app; split; auto).
      specialize (IH WD' H0 S' (free_snoc _ _ _ F NC) (effect_step _ _ _ _ _ _ _ E SE NC)).
      destruct (copy_files check now l c') as [c2 [e|]].
      * destruct IH as (a & g & b & h & -> & I & CF & R & FR & EF). exists (f :: a), g, b, h.
        rewrite <- app_assoc in I, FR, EF. cbn in *. auto 8.
      * rewrite <- app_assoc in IH. exact IH.
    + destruct C as (g & I & CF & R). exists [], g, l, f. rewrite app_nil_r. auto 8.
Qed.

Lemma saw_new check d : saw check [] (new d).
Proof. split; cbn; [intros p; split; [tauto|intros (_ & f & [] & _)]|intros k p; split; [discriminate|intros (_ & f & [] & _)]]. Qed.

(** ** Sorting *)
Lemma components_cmp_is a b : components_cmp a b = list_cmp text_cmp a b.
Proof. revert b; induction a; intros [|]; cbn; try reflexivity; now rewrite IHa. Qed.
Lemma path_cmp_eq p q : path_cmp p q = Eq <-> p = q.
Proof.
  unfold path_cmp. rewrite components_cmp_is, list_cmp_eq by apply text_cmp_eq. unfold components. split; [|congruence].
  intros E. apply app_inj_tail in E as [E1 E2]. destruct p, q. cbn in *. now subst.
Qed.
Lemma path_cmp_lt p q : path_cmp p q = Lt <-> path_lt p q.
Proof. unfold path_cmp, path_lt. rewrite components_cmp_is. apply list_cmp_lt; [apply text_cmp_eq|apply text_cmp_lt]. Qed.
Lemma path_cmp_opp p q : path_cmp q p = CompOpp (path_cmp p q).
Proof. unfold path_cmp. rewrite !components_cmp_is. apply list_cmp_opp. intros. apply text_cmp_flip. Qed.
Lemma path_lt_trans p q r : path_lt p q -> path_lt q r -> path_lt p r.
Proof.
  unfold path_lt. intros A B. eapply dictionary_trans; [|exact A|exact B].
  intros x y z X Y. eapply dictionary_trans; [|exact X|exact Y]. intros. lia.
Qed.

Lemma insert_sorted_perm p l : Permutation (p :: l) (insert_sorted p l).
Proof.
  induction l as [|q l IH]; cbn; auto. destruct (path_cmp p q); auto.
  apply perm_trans with (q :: p :: l); [constructor|]. now constructor.
Qed.
Lemma sort_perm l : Permutation l (sort_unstable l).
Proof.
  induction l as [|p l IH]; cbn; auto. apply perm_trans with (p :: sort_unstable l); auto. apply insert_sorted_perm.
Qed.
Lemma insert_sorted_sorted p l : ~ In p l -> StronglySorted path_lt l -> StronglySorted path_lt (insert_sorted p l).
Proof.
  induction l as [|q l IH]; intros N S; cbn.
  - constructor; constructor.
  - inversion_clear S. cbn in N. destruct (path_cmp p q) eqn:E.
    + apply path_cmp_eq in E. subst. tauto.
    + apply path_cmp_lt in E. constructor; [now constructor|]. constructor; auto. eapply Forall_impl; [|exact H0].
      intros a A. eapply path_lt_trans; eauto.
    + assert (G : path_lt q p) by (apply path_cmp_lt; rewrite path_cmp_opp, E; reflexivity).
      constructor; [apply IH; tauto|]. eapply Permutation_Forall; [apply insert_sorted_perm|]. now constructor.
Qed.
Lemma sort_sorted l : NoDup l -> StronglySorted path_lt (sort_unstable l).
Proof.
  induction 1 as [|p l N D IH]; cbn; [constructor|]. apply insert_sorted_sorted; auto. intros I. apply N.
  eapply Permutation_in; [apply Permutation_sym, sort_perm|exact I].
Qed.

(** ** The whole run *)
Lemma run_spec check now l d : well_named l -> NoDup (map fst d) ->
  match run check now l d with
  | (d', inl (ps, elixir)) => conflict_free check l /\ copied now l d d' /\ StronglySorted path_lt ps /\ NoDup ps
      /\ (forall p, In p ps <-> beam p /\ exists f, In f l /\ outdated d f /\ relative f = p)
      /\ (elixir = true <-> exists f, In f l /\ outdated d f /\ kind "ex" (relative f))
  | (d', inr e) => exists a f b g, l = a ++ g :: b /\ In f a /\ conflict check f g /\ reported check e (relative f) (relative g)
      /\ conflict_free check a /\ copied now a d d'
  end.
Proof.
  intros W N. unfold run.
  pose proof (copy_files_spec check now d l [] (new d) (Forall_nil _) W (saw_new _ _) (FOP_nil _) (effect_new now d N)) as S.
  destruct (copy_files check now l (new d)) as [c [e|]].
  - destruct S as (a & f & b & g & -> & I & C & R & F & E & _). exists a, f, b, g. auto 8.
  - destruct S as (F & E & TN & T & X). cbn [app] in *. split; auto. split; auto. split; [now apply sort_sorted|].
    split; [eapply Permutation_NoDup; [apply sort_perm|auto]|]. split; [|exact X]. intros p. rewrite <- T.
    split; apply Permutation_in; [apply Permutation_sym, sort_perm|apply sort_perm].
Qed.

Lemma free_not check l f g a b : l = a ++ g :: b -> In f a -> conflict check f g -> ~ conflict_free check l.
Proof.
  intros -> I C F. induction a as [|h a IH]; [destruct I|]. cbn in F. inversion_clear F. destruct I as [->|I]; auto.
  rewrite Forall_forall in H. apply (H g); auto. apply in_app_iff. right. now left.
Qed.
Lemma conflict_sym check f g : conflict check f g -> conflict check g f.
Proof. intros (o & A & B). exists o. auto. Qed.
Lemma free_perm check l l' : Permutation l l' -> conflict_free check l -> conflict_free check l'.
Proof.
  unfold conflict_free. induction 1; intros F; auto.
  - inversion_clear F. constructor; auto. eapply Permutation_Forall; eauto.
  - inversion_clear F. inversion_clear H0. inversion_clear H. constructor; [constructor|constructor; auto]; auto.
    intros C. now apply H0, conflict_sym.
Qed.
Lemma free_pair check l f g : conflict_free check l -> In f l -> In g l -> f <> g -> ~ conflict check f g.
Proof.
  unfold conflict_free. intros F If Ig NE. destruct (ForallOrdPairs_In F f g If Ig) as [E|[E|E]]; auto. intros C. now apply E, conflict_sym.
Qed.

(** ** Builds *)
Definition sound (l : list file) (now : N) (d : files) : Prop :=
  NoDup (map fst d) /\ forall p x t, In (p, (x, t)) d -> (t <= now)%N
    /\ forall f, In f l -> native (relative f) -> relative f = p -> (modified f <= t)%N -> content f = x.
Definition in_step (b : built) : Prop :=
  forall p x t, In (p, (x, t)) (in_build b) -> beam p -> In (p, x) (compiled b) /\ forall y, In (p, y) (compiled b) -> y = x.

Lemma outdated_dec d f : NoDup (map fst d) -> outdated d f \/ exists x t, In (relative f, (x, t)) d /\ (modified f <= t)%N.
Proof.
  intros N. destruct (lookup (relative f) d) as [[x t]|] eqn:L.
  - pose proof (lookup_in _ _ _ L) as I. destruct (N.leb_spec (modified f) t); [right; eauto|]. left. intros y u J.
    apply lookup_iff in J; auto. rewrite J in L. injection L as -> ->. exact H.
  - left. intros x t I. exfalso. exact (lookup_none _ _ L _ I).
Qed.

Lemma file_dec (f g : file) : {f = g} + {f <> g}.
Proof.
  destruct f as [p x t], g as [q y u]. destruct (path_dec p q), (N.eq_dec x y), (N.eq_dec t u); [left; congruence|right; congruence..].
Qed.

(** A run in a project without conflicts. *)
Lemma sound_run check l now now' d d' : conflict_free check l -> sound l now d -> (now < now')%N -> copied now' l d d' ->
  sound l now' d' /\ up_to_date l d'.
Proof.
  intros F [N S] LT [N' C].
  assert (U : forall f g, In f l -> In g l -> native (relative f) -> relative f = relative g -> f = g).
  { intros f g If Ig NF E. destruct (file_dec f g); auto. exfalso. apply (free_pair check l f g); auto.
    exists (Itself (relative f)). split; [now constructor|]. rewrite <- E. now constructor. }
  split.
  - split; auto. intros p x t I. apply C in I as [(f & If & NF & O & E & X & T)|[I NO]].
    + subst. split; [lia|]. intros g Ig NG E _. now rewrite (U g f).
    + destruct (S p x t I) as [T H]. split; [lia|]. intros f If NF E M. apply H; auto.
  - intros f If NF. destruct (outdated_dec d f N) as [O|(x & t & I & M)].
    + exists now'. apply C. left. exists f. auto 7.
    + exists t. apply C. right. destruct (S _ _ _ I) as [_ H]. rewrite (H f) by auto. split; auto.
      intros (g & Ig & NG & O & E). rewrite (U g f) in O by auto. apply O in I. lia.
Qed.

Lemma sound_edit l now d l' now' : sound l now d -> (now < now')%N -> (forall f, In f l' -> In f l \/ modified f = now') -> sound l' now' d.
Proof.
  intros [N S] LT E. split; auto. intros p x t I. destruct (S p x t I) as [T H]. split; [lia|]. intros f If NF EP M.
  destruct (E f If) as [F|F]; [now apply H|]. lia.
Qed.

Lemma nodup_run check l now d : well_named l -> NoDup (map fst d) -> NoDup (map fst (fst (run check now l d))).
Proof.
  intros W N. pose proof (run_spec check now l d W N) as R. destruct (run check now l d) as [d' [[ps ex]|e]].
  - apply R.
  - destruct R as (a & f & b & g & _ & _ & _ & _ & _ & C). apply C.
Qed.

(** Compiling. *)
Lemma compile_all compiles d : NoDup (map fst d) -> forall ps done, forallb (accepts compiles d) ps = true -> NoDup ps ->
  forall p x, In (p, x) (fold_left (compile compiles d) ps done) <->
    (In p ps /\ exists t, In (p, (x, t)) d) \/ (~ In p ps /\ In (p, x) done).
Proof.
  intros N. induction ps as [|q ps IH]; intros done A D p x; cbn [fold_left].
  - cbn. tauto.
  - cbn in A. apply andb_true_iff in A as [A1 A2]. inversion_clear D. rewrite IH by auto.
    unfold accepts in A1. unfold compile. destruct (lookup q d) as [[y t]|] eqn:L; [|discriminate]. rewrite A1.
    rewrite in_put. apply lookup_in in L. cbn [In]. split.
    + intros [[I E]|[I [[-> ->]|[NE J]]]]; [left; auto|left; split; eauto|]. right. split; auto. intros [F|F]; auto.
    + intros [[[<-|I] [u J]]|[NI J]].
      * right. split; auto. left. split; auto. apply lookup_iff in L, J; auto. congruence.
      * left. eauto.
      * right. split; [tauto|]. right. split; [intros ->; tauto|auto].
Qed.

Lemma timely_named check l b now clean ok : timely check l b now clean ok -> well_named l /\ NoDup (map fst (in_build b)).
Proof.
  induction 1 as [l now W|l b now clean ok l' now' T [W N] W' LT E|l b now clean ok free compiles now' b' ok' T [W N] LT F B].
  - split; auto. constructor.
  - auto.
  - split; auto. pose proof (nodup_run check l now' (in_build b) W N) as R. unfold build in B.
    destruct (run check now' l (in_build b)) as [d [[ps ex]|e]]; injection B as <- <-; exact R.
Qed.
Lemma timely_sound check l b now clean ok : timely check l b now clean ok -> clean = true \/ ok = true -> sound l now (in_build b).
Proof.
  induction 1 as [l now W|l b now clean ok l' now' T IH W' LT E|l b now clean ok free compiles now' b' ok' T IH LT F B]; intros CL.
  - split; [constructor|]. intros p x t [].
  - eapply sound_edit; eauto.
  - destruct (timely_named _ _ _ _ _ _ T) as [W N].
    assert (IH' : sound l now (in_build b)) by (apply IH; destruct clean, ok; destruct CL; auto; discriminate).
    pose proof (run_spec check now' l (in_build b) W N) as R. unfold build in B.
    destruct (run check now' l (in_build b)) as [d [[ps ex]|e]]; injection B as <- <-; cbn [in_build].
    + destruct R as (FR & C & _). eapply (sound_run check); eauto.
    + rewrite andb_false_r in CL. destruct CL as [CL|CL]; [|discriminate]. apply andb_true_iff in CL as [_ FR].
      destruct R as (a & f & c & g & E & I & CF & _). exfalso. eapply free_not; eauto.
Qed.
Lemma timely_in_step check l b now clean ok : timely check l b now clean ok -> ok = true -> in_step b.
Proof.
  induction 1 as [l now W|l b now clean ok l' now' T IH W' LT E|l b now clean ok free compiles now' b' ok' T IH LT F B]; intros OK.
  - intros p x t [].
  - auto.
  - apply andb_true_iff in OK as [OK OK']. specialize (IH OK). destruct (timely_named _ _ _ _ _ _ T) as [W N].
    pose proof (run_spec check now' l (in_build b) W N) as R. unfold build in B.
    destruct (run check now' l (in_build b)) as [d [[ps ex]|e]]; injection B as <- E'; [|congruence].
    rewrite OK' in E'. destruct R as (_ & [ND C] & _ & NP & P & _).
    intros p x t I BP. cbn [in_build] in I. cbn [compiled].
    assert (U : forall y u, In (p, (y, u)) d -> y = x). { intros y u J. apply lookup_iff in I, J; auto. congruence. }
    destruct (in_dec path_dec p ps) as [Ip|Ip].
    + split; [apply compile_all; eauto|]. intros y J. apply compile_all in J as [[_ [u J]]|[NJ _]]; auto; [eauto|tauto].
    + pose proof I as I0. apply C in I as [(f & If & NF & O & E & _)|[I _]].
      { exfalso. apply Ip, P. split; auto. exists f. auto. }
      destruct (IH p x t I BP) as [A A']. split; [apply compile_all; auto|]. intros y J. apply compile_all in J as [[J _]|[_ J]]; auto. tauto.
Qed.

