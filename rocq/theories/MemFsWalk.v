From Coq Require Import NArith Arith Bool List Lia.
From Verif Require Import Text TextProofs MemFs MemFsSpec MemFsProofs.
Import ListNotations.
Local Open Scope nat_scope.

Lemma is_file_at p files : is_file p files = true <-> file_at (tree_of files) p.
Proof.
  unfold is_file, file_at, tree_of. destruct (get p files) as [[[c|] m]|]; cbn; split; try discriminate; eauto;
    intros (? & ? & ?); discriminate.
Qed.
Lemma is_directory_at p files : is_directory p files = true <-> directory_at (tree_of files) p.
Proof.
  unfold is_directory, directory_at, tree_of. destruct (get p files) as [[[c|] m]|]; cbn; split; try discriminate; eauto;
    intros (? & ?); discriminate.
Qed.

Lemma nodup_app {A} (l m : list A) : NoDup l -> NoDup m -> (forall x, In x l -> ~ In x m) -> NoDup (l ++ m).
Proof.
  induction l as [|x l IH]; cbn; intros Nl Nm D; auto. inversion Nl; subst. constructor.
  - rewrite in_app_iff. intros [|I]; [contradiction|]. apply (D x); auto.
  - apply IH; auto.
Qed.
Lemma filter_at_most {A} (f : A -> bool) l : length (filter f l) <= length l.
Proof. induction l as [|x l IH]; cbn; [lia|]. destruct (f x); cbn; lia. Qed.

Section Walk.
Context (files : fs).
Hypothesis ND : NoDup (map fst files).
Notation t := (tree_of files).

Definition apart (queue : list path) : Prop :=
  NoDup queue /\ forall a b, In a queue -> In b queue -> within a b -> a = b.
Definition below_any (queue : list path) (k : path) : bool :=
  existsb (fun d => if below_dec d k then true else false) queue.
Lemma below_any_spec queue k : below_any queue k = true <-> exists d, In d queue /\ below d k.
Proof.
  unfold below_any. rewrite existsb_exists. split; intros (d & I & B); exists d; split; auto; destruct below_dec; auto; discriminate.
Qed.
Definition weight (queue : list path) : nat := length queue + length (filter (below_any queue) (map fst files)).

Lemma weight_drop p queue : weight queue < weight (p :: queue).
Proof.
  unfold weight. cbn [length].
  enough (length (filter (below_any queue) (map fst files)) <= length (filter (below_any (p :: queue)) (map fst files))) by lia.
  apply NoDup_incl_length; [now apply NoDup_filter|].
  intros k. rewrite !filter_In, !below_any_spec. intros (I & d & D & B). split; auto. exists d. split; [now right|auto].
Qed.
Lemma not_within_shorter (x : text) p : ~ within (x :: p) p.
Proof. intros W. apply within_length in W. cbn in W. lia. Qed.
Lemma weight_expand p queue : apart (p :: queue) -> weight (queue ++ read_dir p files) < weight (p :: queue).
Proof.
  intros [N A]. unfold weight. rewrite app_length. cbn [length].
  enough (length (read_dir p files ++ filter (below_any (queue ++ read_dir p files)) (map fst files))
          <= length (filter (below_any (p :: queue)) (map fst files))) by (rewrite app_length in H; lia).
  apply NoDup_incl_length.
  - assert (X : forall k, In k (read_dir p files) -> ~ In k (filter (below_any (queue ++ read_dir p files)) (map fst files))).
    { intros k K. rewrite filter_In, below_any_spec. intros (_ & d & D & B).
      apply read_dir_in in K as (x & -> & _). apply below_cons in B. apply in_app_iff in D as [D|D].
      - apply A in B; [|now right|now left]. subst d. inversion N; contradiction.
      - apply read_dir_in in D as (y & -> & _). now apply not_within_shorter in B. }
    apply nodup_app; auto; [now apply read_dir_nodup|now apply NoDup_filter].
  - intros k K. apply in_app_iff in K as [K|K].
    + apply read_dir_in in K as (x & -> & K). apply filter_In. split; [now apply get_key|].
      apply below_any_spec. exists p. split; [now left|]. apply below_cons, within_refl.
    + apply filter_In in K as [K B]. apply filter_In. split; auto. apply below_any_spec in B as (d & D & B).
      apply below_any_spec. apply in_app_iff in D as [D|D].
      * exists d. split; [now right|auto].
      * apply read_dir_in in D as (x & -> & _). exists p. split; [now left|].
        eapply below_trans; [|apply below_within, B]. apply below_cons, within_refl.
Qed.
Lemma apart_expand p queue : apart (p :: queue) -> apart (queue ++ read_dir p files).
Proof.
  intros [N A]. inversion N as [|? ? Np Nq]; subst.
  assert (X : forall d, In d queue -> within p d -> False).
  { intros d D W. apply A in W; [|now left|now right]. now subst d. }
  assert (Y : forall d, In d queue -> within d p -> False).
  { intros d D W. apply A in W; [|now right|now left]. now subst d. }
  assert (C : forall (x : text) d, within (x :: p) d -> within p d).
  { intros x d W. eapply within_trans; [|exact W]. apply within_cons. right. apply within_refl. }
  split.
  - assert (Z : forall k, In k queue -> ~ In k (read_dir p files)).
    { intros k K K'. apply read_dir_in in K' as (x & -> & _). apply (X (x :: p) K). apply C with x. apply within_refl. }
    apply nodup_app; auto. now apply read_dir_nodup.
  - intros a b I J W. apply in_app_iff in I as [I|I]; apply in_app_iff in J as [J|J].
    + apply A; auto; now right.
    + apply read_dir_in in J as (x & -> & _). apply within_cons in W as [->|W]; [reflexivity|]. destruct (Y a I W).
    + apply read_dir_in in I as (x & -> & _). destruct (X b J). now apply C in W.
    + apply read_dir_in in I as (x & -> & _). apply read_dir_in in J as (y & -> & _).
      apply within_cons in W as [->|W]; [reflexivity|]. now apply not_within_shorter in W.
Qed.

Lemma found_self p r : file_at t p -> (found_from t p r <-> r = p).
Proof.
  intros F. split.
  - intros (W & _ & D). apply within_below in W as [|B]; auto.
    destruct (not_file_and_directory t p F). apply D; [apply within_refl|exact B].
  - intros ->. split; [apply within_refl|]. split; auto. intros a W B. destruct (below_within_absurd _ _ B W).
Qed.
Lemma found_nothing p r : ~ file_at t p -> ~ directory_at t p -> ~ found_from t p r.
Proof.
  intros F D (W & Fr & A). apply within_below in W as [->|B]; [contradiction|]. apply D, A; [apply within_refl|exact B].
Qed.
Lemma found_children p r : directory_at t p ->
  (found_from t p r <-> exists c, In c (read_dir p files) /\ found_from t c r).
Proof.
  intros D. split.
  - intros (W & F & A). apply within_below in W as [->|B]; [destruct (not_file_and_directory t p F D)|].
    assert (S : exists x, within (x :: p) r).
    { destruct B as (y & l & ->). destruct (@exists_last _ (y :: l)) as (l' & x & ->); [discriminate|].
      exists x. exists l'. now rewrite <- app_assoc. }
    destruct S as (x & W). exists (x :: p).
    assert (P : within p (x :: p)) by (apply within_cons; right; apply within_refl). split.
    + apply read_dir_in. exists x. split; auto.
      apply within_below in W as [->|B'].
      * destruct F as (c & m & E). unfold tree_of in E. congruence.
      * destruct (A (x :: p) P B') as (m & E). unfold tree_of in E. congruence.
    + split; auto. split; auto. intros a Wa Ba. apply A; auto. eapply within_trans; [exact P|exact Wa].
  - intros (c & I & W & F & A). apply read_dir_in in I as (x & -> & _).
    assert (P : within p (x :: p)) by (apply within_cons; right; apply within_refl).
    split; [eapply within_trans; [exact P|exact W]|]. split; auto. intros a Wa Ba.
    destruct (above_both (x :: p) a r W (below_within _ _ Ba)) as [V|V].
    + now apply A.
    + apply below_cons in V. apply within_below in Wa as [->|Wa]; auto. destruct (below_within_absurd _ _ Wa V).
Qed.

Lemma walk_spec fuel : forall queue walked, apart queue ->
  (forall w d, In w walked -> In d queue -> ~ within d w) -> weight queue < fuel ->
  exists l, walk fuel files queue walked = Some l /\ NoDup l
    /\ forall r, In r l <-> exists d, In d queue /\ found_from t d r.
Proof.
  induction fuel as [|fuel IH]; intros queue walked A V F; [lia|].
  destruct queue as [|p queue]; cbn [walk].
  - exists []. split; auto. split; [constructor|]. intros r. split; [intros []|intros (d & [] & _)].
  - assert (A' : apart queue).
    { destruct A as [N A]. inversion N; subst. split; auto. intros a b I J. apply A; now right. }
    assert (V' : forall w d, In w walked -> In d queue -> ~ within d w) by (intros w d I J; apply V; auto; now right).
    pose proof (weight_drop p queue) as L.
    destruct (is_file p files) eqn:E.
    + apply is_file_at in E. destruct (IH queue walked) as (l & -> & Nl & S); auto; [lia|].
      exists (p :: l). split; auto. split.
      * constructor; auto. rewrite S. intros (d & I & W & _). destruct A as [N A].
        apply A in W; [|now right|now left]. subst d. inversion N; contradiction.
      * intros r. cbn [In]. rewrite S. split.
        -- intros [<-|(d & I & G)]; [|exists d; auto]. exists p. split; [now left|]. now apply found_self.
        -- intros (d & [<-|I] & G); [left|right; eauto]. symmetry. now apply found_self in G.
    + assert (NF : ~ file_at t p) by (rewrite <- is_file_at; congruence).
      destruct (is_directory p files) eqn:D; cbn [negb].
      * apply is_directory_at in D.
        assert (W : existsb (path_eqb p) walked = false).
        { destruct existsb eqn:X; auto. apply existsb_exists in X as (w & I & X). apply path_eqb_eq in X as <-.
          destruct (V p p I); [now left|apply within_refl]. }
        rewrite W. destruct (IH (queue ++ read_dir p files) (p :: walked)) as (l & -> & Nl & S).
        -- now apply apart_expand.
        -- intros w d [<-|I] J Wd; apply in_app_iff in J as [J|J].
           ++ destruct A as [N A]. apply A in Wd; [|now right|now left]. subst d. inversion N; contradiction.
           ++ apply read_dir_in in J as (x & -> & _). now apply not_within_shorter in Wd.
           ++ now apply (V' w d).
           ++ apply read_dir_in in J as (x & -> & _). apply (V w p); auto; [now left|].
              eapply within_trans; [|exact Wd]. apply within_cons. right. apply within_refl.
        -- pose proof (weight_expand p queue A). lia.
        -- exists l. split; auto. split; auto. intros r. rewrite S. split.
           ++ intros (d & I & G). apply in_app_iff in I as [I|I]; [exists d; split; [now right|auto]|].
              exists p. split; [now left|]. apply found_children; eauto.
           ++ intros (d & [<-|I] & G).
              ** apply found_children in G as (c & C & G); auto. exists c. split; auto. apply in_app_iff. auto.
              ** exists d. split; auto. apply in_app_iff. auto.
      * assert (NDir : ~ directory_at t p) by (rewrite <- is_directory_at; congruence).
        destruct (IH queue walked) as (l & -> & Nl & S); auto; [lia|].
        exists l. split; auto. split; auto. intros r. rewrite S. split; intros (d & I & G).
        -- exists d. split; [now right|auto].
        -- destruct I as [<-|I]; eauto. now apply found_nothing in G.
Qed.
Theorem files_in_spec dir : exists l, files_in dir files = Some l /\ NoDup l
  /\ forall r, In r l <-> found_from t dir r.
Proof.
  unfold files_in. destruct (walk_spec (S (S (length files))) [dir] []) as (l & E & N & S).
  - split; [repeat constructor; auto|]. intros a b [<-|[]] [<-|[]] _. reflexivity.
  - intros w d [].
  - unfold weight. cbn [length]. pose proof (filter_at_most (below_any [dir]) (map fst files)) as L.
    rewrite map_length in L. lia.
  - exists l. split; auto. split; auto. intros r. rewrite S. split; [intros (d & [<-|[]] & G); auto|].
    intros G. exists dir. split; [now left|auto].
Qed.
End Walk.

(** In a tree, these are the files below the directory. *)
Lemma found_in_tree t dir p : a_tree t -> (found_from t dir p <-> within dir p /\ file_at t p).
Proof.
  intros T. split; [intros (W & F & _); auto|]. intros [W F]. split; auto. split; auto.
  assert (G : forall p a, t p <> None -> below a p -> directory_at t a).
  { clear p W F. induction p as [|x p IH]; intros a E B; [now apply below_nil in B|].
    apply below_cons in B. pose proof (T x p E) as D. apply within_below in B as [->|B]; auto.
    apply IH; auto. destruct D as [m D]. congruence. }
  intros a _ B. apply G with p; auto. destruct F as (c & m & F). congruence.
Qed.
