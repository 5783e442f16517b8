(** Proofs about fingerprints of path dependencies. *)
From Coq Require Import Arith NArith Bool List Lia.
From Verif Require Import Text TextProofs Resolve ResolveProofs Fingerprint FingerprintSpec.
Import ListNotations.
Local Open Scope list_scope.
Local Open Scope nat_scope.

Section Inv.
Variable fingerprint : text -> N.
Notation check := (path_dependency_configs_unchanged fingerprint).

(** What the check says and writes. *)
Lemma check_true time files l : forall fs fs', check time files l fs = (Some true, fs') ->
  fs' = fs /\ forall n p, In (n, Path p) l -> exists t m f ft, get p files = Some (t, m) /\ get n fs = Some (f, ft)
                /\ (m <= ft \/ f = fingerprint t).
Proof.
  induction l as [|[n [p|s]] l IH]; intros fs fs' E; cbn in E.
  - injection E as <-. split; auto. intros n p [].
  - destruct (get p files) as [[t m]|] eqn:G; [|discriminate].
    destruct (get n fs) as [[f ft]|] eqn:F; [|discriminate].
    assert (X : (m <= ft \/ f = fingerprint t) /\ check time files l fs = (Some true, fs')).
    { destruct (Nat.leb_spec m ft); auto. destruct (N.eqb_spec f (fingerprint t)); auto. discriminate. }
    destruct X as [X Y]. apply IH in Y. destruct Y as [-> Y]. split; auto.
    intros n' p' [I|I]; [|auto]. injection I as <- <-. exists t, m, f, ft. auto.
  - apply IH in E. destruct E as [-> E]. split; auto. intros n' p' [I|I]; [discriminate|auto].
Qed.
Lemma check_other time files l : forall fs r fs', check time files l fs = (r, fs') ->
  (r <> Some false /\ fs' = fs)
  \/ (r = Some false /\ exists n p t m, In (n, Path p) l /\ get p files = Some (t, m) /\ fs' = insert n (fingerprint t, time) fs
        /\ ((get n fs = None) \/ exists f ft, get n fs = Some (f, ft) /\ ft < m /\ f <> fingerprint t)).
Proof.
  induction l as [|[n [p|s]] l IH]; intros fs r fs' E; cbn in E.
  - injection E as <- <-. left. split; [discriminate|auto].
  - destruct (get p files) as [[t m]|] eqn:G; [|injection E as <- <-; left; split; [discriminate|auto]].
    assert (Y : check time files l fs = (r, fs') \/
                (r = Some false /\ fs' = insert n (fingerprint t, time) fs /\
                 ((get n fs = None) \/ exists f ft, get n fs = Some (f, ft) /\ ft < m /\ f <> fingerprint t))).
    { destruct (get n fs) as [[f ft]|].
      - destruct (Nat.leb_spec m ft); auto. destruct (N.eqb_spec f (fingerprint t)); auto.
        injection E as <- <-. right. split; auto. split; auto. right. exists f, ft. auto.
      - injection E as <- <-. right. auto. }
    destruct Y as [Y|(-> & -> & Y)].
    + apply IH in Y. destruct Y as [Y|(R & n' & p' & t' & m' & I & Z)]; auto. right. split; auto. exists n', p', t', m'. split; auto. now right.
    + right. split; auto. exists n, p, t, m. split; [now left|]. auto.
  - apply IH in E. destruct E as [E|(R & n' & p' & t' & m' & I & Z)]; auto. right. split; auto. exists n', p', t', m'. split; auto. now right.
Qed.

(** ** When all goes well *)
Record good (log : list (text * text * nat)) (w : world) : Prop := {
  good_new : NoDup (map (fun x => snd (fst x)) log);
  good_files : forall p t m, get p (config_files w) = Some (t, m) -> In (p, t, m) log;
  good_times : forall p t m, In (p, t, m) log -> m < now w;
  good_none : manifest_file w = None -> fingerprint_files w = [];
  good_resolved : forall mf, manifest_file w = Some mf -> exists last, last < now w
    /\ (forall n f ft, get n (fingerprint_files w) = Some (f, ft) -> ft <= last)
    /\ (forall p t m, get p (config_files w) = Some (t, m) -> m <= last -> get p (resolved_with mf) = Some (t, m));
  good_prints : forall n f ft, get n (fingerprint_files w) = Some (f, ft) ->
    exists p t m, In (p, t, m) log /\ m <= ft /\ f = fingerprint t }.

Definition texts (log : list (text * text * nat)) : list text := map (fun x => snd (fst x)) log.
Lemma good_kept log w use updates succeeds order w' : good log w ->
  (forall a b, In a (texts log) -> In b (texts log) -> fingerprint a = fingerprint b -> a = b) ->
  resolve_versions fingerprint use updates succeeds order w = (w', Kept) ->
  exists mf, manifest_file w = Some mf /\ use = true /\ updates = false
   /\ is_same_requirements (manifest_requirements mf) (declared w) = true
   /\ forall n p, In (n, Path p) order -> exists t m, get p (config_files w) = Some (t, m) /\ get p (resolved_with mf) = Some (t, m).
Proof.
  intros G injective E. unfold resolve_versions in E. destruct (manifest_file w) as [mf|] eqn:M.
  - exists mf. split; auto.
    destruct (use && negb updates && is_same_requirements (manifest_requirements mf) (declared w)) eqn:C.
    + apply andb_true_iff in C. destruct C as [C S]. apply andb_true_iff in C. destruct C as [U V]. apply negb_true_iff in V.
      split; auto. split; auto. split; auto.
      destruct (check (now w) (config_files w) order (fingerprint_files w)) as [[[|]|] fs] eqn:K; try discriminate;
        [|unfold perform_version_resolution in E; destruct succeeds; discriminate].
      apply check_true in K. destruct K as [_ K]. intros n p I. destruct (K n p I) as (t & m & f & ft & P & F & X).
      exists t, m. split; auto. destruct G. destruct (good_resolved0 mf M) as (last & L & A & B).
      apply B; auto. specialize (A _ _ _ F). destruct X as [X|X]; [lia|].
      destruct (good_prints0 _ _ _ F) as (p' & t' & m' & J & L' & Y).
      apply good_files0 in P.
      assert (t' = t).
      { apply injective; [| |congruence]; apply in_map_iff; [now exists (p', t', m')|now exists (p, t, m)]. }
      subst t'.
      assert (Z : (p', t, m') = (p, t, m)).
      { clear - good_new0 P J. induction log as [|x log IH]; [destruct P|]. cbn in good_new0. inversion good_new0; subst.
        destruct P as [->|P]; destruct J as [->|J]; auto.
        - exfalso. apply H1. cbn. apply in_map_iff. exists (p', t, m'). auto.
        - exfalso. apply H1. cbn. apply in_map_iff. exists (p, t, m). auto. }
      injection Z as -> ->. lia.
    + unfold perform_version_resolution in E. destruct succeeds; discriminate.
  - unfold perform_version_resolution in E. destruct succeeds; discriminate.
Qed.

Lemma good_performed log w fs : good log w ->
  (forall n f ft, get n fs = Some (f, ft) -> ft <= now w /\ exists p t m, In (p, t, m) log /\ m <= ft /\ f = fingerprint t) ->
  good log (tick (fst (perform_version_resolution true (World (now w) (declared w) (config_files w) fs (manifest_file w))))).
Proof.
  intros G F. destruct G. cbn. constructor; cbn; auto; try discriminate.
  - intros p t m I. apply good_times0 in I. lia.
  - intros mf E. injection E as <-. exists (now w). split; [lia|]. split.
    + intros n f ft I. now apply F in I.
    + auto.
  - intros n f ft I. apply F in I. tauto.
Qed.

Lemma good_tick log w : good log w -> good log (tick w).
Proof.
  intros G. destruct G. constructor; cbn; auto.
  - intros p t m I. apply good_times0 in I. lia.
  - intros mf M. destruct (good_resolved0 mf M) as (last & L & A). exists last. split; [lia|]. exact A.
Qed.

Lemma good_prints_now log w : good log w ->
  forall n f ft, get n (fingerprint_files w) = Some (f, ft) -> ft <= now w /\ exists p t m, In (p, t, m) log /\ m <= ft /\ f = fingerprint t.
Proof.
  intros G n f ft I. destruct G. split; [|eauto].
  destruct (manifest_file w) as [mf|] eqn:M.
  - destruct (good_resolved0 mf eq_refl) as (last & L & A & _). specialize (A _ _ _ I). lia.
  - rewrite (good_none0 eq_refl) in I. discriminate.
Qed.

Lemma good_run log w use updates order : good log w ->
  good log (tick (fst (resolve_versions fingerprint use updates true order w))).
Proof.
  intros G. pose proof (good_prints_now log w G) as F. unfold resolve_versions. destruct (manifest_file w) as [mf|] eqn:M.
  - destruct (use && negb updates && is_same_requirements (manifest_requirements mf) (declared w)).
    + destruct (check (now w) (config_files w) order (fingerprint_files w)) as [r fs] eqn:K.
      apply check_other in K. destruct K as [(R & ->)|(-> & n & p & t & m & I & P & -> & _)].
      * destruct r as [[|]|]; [|congruence|]; apply good_tick; rewrite <- M; cbn; destruct w; exact G.
      * rewrite <- M. apply good_performed; auto. intros n' f ft. rewrite get_insert. destruct (text_eqb n n'); [|apply F].
        intros E. injection E as <- <-. split; [lia|]. apply (good_files _ _ G) in P. exists p, t, m. split; auto. split; auto.
        apply (good_times _ _ G) in P. lia.
    + pose proof (good_performed log w _ G F) as X. destruct w. exact X.
  - pose proof (good_performed log w _ G F) as X. destruct w. exact X.
Qed.

Lemma good_write log w p t : good log w -> ~ In t (map (fun x => snd (fst x)) log) ->
  good ((p, t, now w) :: log) (happen fingerprint w (Write p t (now w))).
Proof.
  intros G N. destruct G. unfold happen. constructor; cbn [map fst snd config_files now fingerprint_files manifest_file tick].
  - constructor; auto.
  - intros p' t' m'. rewrite get_insert. destruct (text_eqb p p') eqn:E.
    + apply text_eqb_eq in E. subst. intros I. injection I as <- <-. now left.
    + intros I. right. auto.
  - intros p' t' m' [I|I]; [injection I as <- <- <-; lia|]. apply good_times0 in I. lia.
  - auto.
  - intros mf M. destruct (good_resolved0 mf M) as (last & L & A & B). exists last. split; [lia|]. split; auto.
    intros p' t' m'. rewrite get_insert. destruct (text_eqb p p'); [|auto]. intros I. injection I as <- <-. lia.
  - intros n f ft I. destruct (good_prints0 _ _ _ I) as (p' & t' & m' & J & X). exists p', t', m'. split; auto. now right.
Qed.

Lemma good_happened l : forall log w, good log w -> timely (now w) l -> all_succeed l ->
  NoDup (map snd (writes l)) -> (forall t, In t (map snd (writes l)) -> ~ In t (map (fun x => snd (fst x)) log)) ->
  exists log', good log' (happened fingerprint l w) /\ forall t, In t (texts log') -> In t (texts log) \/ In t (map snd (writes l)).
Proof.
  induction l as [|e l IH]; intros log w G T S D N.
  - exists log. split; auto.
  - assert (S' : all_succeed l) by (intros u up s o I; apply (S u up s o); now right).
    destruct e as [p t m|r|use updates succeeds order]; cbn [happened fold_left] in *.
    + cbn in T. destruct T as [-> T]. cbn [writes flat_map app map snd] in D, N. inversion D; subst.
      destruct (IH ((p, t, now w) :: log) (happen fingerprint w (Write p t (now w)))) as (log' & G' & X); auto.
      * apply good_write; auto. apply N. now left.
      * intros t' I [E|I']; [cbn in E; subst; contradiction|]. revert I'. apply N. now right.
      * exists log'. split; auto. intros t' I. apply X in I. cbn [texts map fst snd In] in I. cbn [writes flat_map app map snd In].
        unfold texts. unfold writes in I. tauto.
    + apply (IH log); auto. cbn [happen]. destruct G. apply good_tick. constructor; auto.
    + assert (succeeds = true) as -> by (apply (S use updates succeeds order); now left).
      apply (IH log); auto.
      * cbn [happen]. now apply good_run.
      * cbn [timely] in T. replace (now (happen fingerprint w (Run use updates true order))) with (Datatypes.S (now w)); auto.
        cbn [happen tick now]. f_equal. unfold resolve_versions, perform_version_resolution.
        destruct (manifest_file w); [|reflexivity].
        destruct (_ && _); [|reflexivity]. destruct (check _ _ _ _) as [[[|]|] fs]; reflexivity.
Qed.

Lemma good_start : good [] start.
Proof. constructor; cbn; try discriminate; auto; try (intros; contradiction). constructor. Qed.

(** ** Running again *)
Definition fine (w : world) (n p : text) : Prop :=
  exists t m f ft, get p (config_files w) = Some (t, m) /\ get n (fingerprint_files w) = Some (f, ft) /\ (m <= ft \/ f = fingerprint t).
Record ready (l : requirements) (w : world) : Prop := {
  ready_declared : declared w = l;
  ready_files : forall n p, In (n, Path p) l -> exists t m, get p (config_files w) = Some (t, m) /\ m <= now w }.

Lemma check_fine w : forall l, (forall n p, In (n, Path p) l -> fine w n p) ->
  check (now w) (config_files w) l (fingerprint_files w) = (Some true, fingerprint_files w).
Proof.
  induction l as [|[n [p|s]] l IH]; intros F; cbn; auto.
  - destruct (F n p) as (t & m & f & ft & -> & -> & X); [now left|].
    destruct (Nat.leb_spec m ft); [apply IH; intros; apply F; now right|].
    destruct X as [X| ->]; [lia|]. rewrite N.eqb_refl. apply IH. intros. apply F. now right.
  - apply IH. intros. apply F. now right.
Qed.

Lemma check_some files l : (forall n p, In (n, Path p) l -> exists t m, get p files = Some (t, m)) ->
  forall time fs, exists b fs', check time files l fs = (Some b, fs').
Proof.
  induction l as [|[n [p|s]] l IH]; intros F time fs; cbn.
  - eauto.
  - destruct (F n p) as (t & m & ->); [now left|].
    assert (X : forall n p, In (n, Path p) l -> exists t m, get p files = Some (t, m)) by (intros; eapply F; right; eauto).
    destruct (get n fs) as [[f ft]|]; eauto. destruct (Nat.leb m ft); auto. destruct (N.eqb f (fingerprint t)); eauto.
  - apply IH. intros. eapply F. right. eauto.
Qed.

Lemma requirement_eqb_refl r : requirement_eqb r r = true.
Proof. destruct r; apply text_eqb_refl. Qed.
Lemma same_refl l : NoDup (map fst l) -> is_same_requirements l l = true.
Proof.
  intros D. unfold is_same_requirements. rewrite Nat.eqb_refl. cbn [andb]. apply forallb_forall. intros [n r] I.
  assert (get n l = Some r) as ->; [|apply requirement_eqb_refl].
  induction l as [|[k q] l IH]; [destruct I|]. cbn in D. inversion D; subst. cbn. destruct I as [E|I].
  - injection E as -> ->. now rewrite text_eqb_refl.
  - assert (text_eqb k n = false) as ->; [|auto]. apply text_eqb_neq. intros ->. apply H1. apply in_map_iff. now exists (n, r).
Qed.

Definition manifest_same (w : world) : Prop :=
  exists mf, manifest_file w = Some mf /\ is_same_requirements (manifest_requirements mf) (declared w) = true.
Notation run := (fun w o => happen fingerprint w (Run true false true o)).

Lemma run_same l w o : NoDup (map fst l) -> ready l w ->
  (forall n p, In (n, Path p) o <-> In (n, Path p) l) -> ready l (run w o) /\ manifest_same (run w o).
Proof.
  intros D R O. cbn [happen]. unfold resolve_versions. destruct (manifest_file w) as [mf|] eqn:M.
  - destruct (true && negb false && is_same_requirements (manifest_requirements mf) (declared w)) eqn:C.
    + destruct (check_some (config_files w) o) with (time := now w) (fs := fingerprint_files w) as (b & fs & K).
      { intros n p I. apply O in I. destruct (ready_files _ _ R n p I) as (t & m & G & _). eauto. }
      unfold happen, resolve_versions. rewrite M, C, K. destruct b.
      * split.
        -- destruct R as [RD RF]. split; auto. cbn. intros n p I. destruct (RF n p I) as (t & m & G & L). exists t, m. split; auto.
        -- exists mf. split; auto.
      * split.
        -- destruct R as [RD RF]. split; auto. cbn. intros n p I. destruct (RF n p I) as (t & m & G & L). exists t, m. split; auto.
        -- eexists. split; [reflexivity|]. cbn. apply same_refl. now rewrite (ready_declared _ _ R).
    + unfold happen, resolve_versions. rewrite M, C. split.
      * destruct R as [RD RF]. split; auto. cbn. intros n p I. destruct (RF n p I) as (t & m & G & L). exists t, m. split; auto.
      * eexists. split; [reflexivity|]. cbn. apply same_refl. now rewrite (ready_declared _ _ R).
  - unfold happen, resolve_versions. rewrite M. split.
    * destruct R as [RD RF]. split; auto. cbn. intros n p I. destruct (RF n p I) as (t & m & G & L). exists t, m. split; auto.
    * eexists. split; [reflexivity|]. cbn. apply same_refl. now rewrite (ready_declared _ _ R).
Qed.

(** One more is fine after each run, until all are. *)
Lemma run_less l w o k : NoDup (map fst l) -> ready l w -> manifest_same w ->
  (forall n p, In (n, Path p) o <-> In (n, Path p) l) ->
  (exists U, length U <= S k /\ forall n p, In (n, Path p) l -> In n U \/ fine w n p) ->
  exists U, length U <= k /\ forall n p, In (n, Path p) l -> In n U \/ fine (run w o) n p.
Proof.
  intros D R (mf & M & Sm) O (U & L & F).
  assert (E : exists b fs, check (now w) (config_files w) o (fingerprint_files w) = (Some b, fs)
     /\ config_files (run w o) = config_files w /\ fingerprint_files (run w o) = fs).
  { destruct (check_some (config_files w) o) with (time := now w) (fs := fingerprint_files w) as (b & fs & K).
    { intros n p I. apply O in I. destruct (ready_files _ _ R n p I) as (t & m & G & _). eauto. }
    exists b, fs. split; auto. unfold happen, resolve_versions. rewrite M, Sm. cbn [andb negb]. rewrite K. destruct b; auto. }
  destruct E as (b & fs & K & C & Fs). destruct b.
  - exists []. split; [cbn; lia|]. intros n p I. right. apply check_true in K. destruct K as [-> K]. apply O in I.
    destruct (K n p I) as (t & m & f & ft & X). exists t, m, f, ft. rewrite C, Fs. exact X.
  - pose proof K as K'. apply check_other in K'. destruct K' as [(X & _)|(_ & n & p & t & m & I & P & E & N)]; [congruence|].
    apply O in I. exists (filter (fun x => negb (text_eqb n x)) U).
    assert (NF : ~ fine w n p).
    { intros (t' & m' & f & ft & A & B & X). rewrite P in A. injection A as <- <-. destruct N as [N|(f' & ft' & N & Lt & Ne)]; [congruence|].
      rewrite B in N. injection N as <- <-. destruct X; [lia|auto]. }
    assert (IU : In n U) by (destruct (F n p I); tauto).
    split.
    + assert (Lf : forall V, In n V -> length (filter (fun x => negb (text_eqb n x)) V) < length V).
      { clear. induction V as [|x V IH]; intros J; [destruct J|]. cbn.
        assert (Q : length (filter (fun x => negb (text_eqb n x)) V) <= length V).
        { clear. induction V as [|y V IH]; cbn; [lia|]. destruct (negb (text_eqb n y)); cbn; lia. }
        destruct J as [->|J].
        - rewrite text_eqb_refl. cbn. lia.
        - specialize (IH J). destruct (negb (text_eqb n x)); cbn; lia. }
      specialize (Lf U IU). lia.
    + intros n' p' I'. destruct (text_eqb n n') eqn:Q.
      * right. apply text_eqb_eq in Q. subst n'.
        assert (p' = p).
        { clear - D I I'. induction l as [|[a r] l IH]; [destruct I|]. cbn in D. inversion D; subst.
          destruct I as [J|J]; destruct I' as [J'|J']; auto.
          - congruence.
          - exfalso. injection J as -> ->. apply H1. apply in_map_iff. now exists (n, Path p').
          - exfalso. injection J' as -> ->. apply H1. apply in_map_iff. now exists (n, Path p). }
        subst p'. destruct (ready_files _ _ R n p I) as (t' & m' & A & Lm). rewrite P in A. injection A as <- <-.
        exists t, m, (fingerprint t), (now w). rewrite C, Fs, E, get_insert, text_eqb_refl. auto.
      * destruct (F n' p' I') as [J|(t' & m' & f & ft & A & B & X)].
        -- left. apply filter_In. split; auto. now rewrite Q.
        -- right. exists t', m', f, ft. rewrite C, Fs, E, get_insert, Q. auto.
Qed.

Lemma all_fine l orders : forall w k, NoDup (map fst l) -> ready l w -> manifest_same w ->
  (forall o, In o orders -> forall n p, In (n, Path p) o <-> In (n, Path p) l) -> k <= length orders ->
  (exists U, length U <= k /\ forall n p, In (n, Path p) l -> In n U \/ fine w n p) ->
  ready l (fold_left run orders w) /\ manifest_same (fold_left run orders w)
  /\ forall n p, In (n, Path p) l -> fine (fold_left run orders w) n p.
Proof.
  induction orders as [|o orders IH]; intros w k D R M O L X.
  - cbn in L. assert (k = 0) as -> by lia. destruct X as (U & LU & F). cbn [fold_left]. split; auto. split; auto.
    intros n p I. destruct U; [|cbn in LU; lia]. destruct (F n p I) as [[]|]; auto.
  - cbn [fold_left]. assert (O1 : forall n p, In (n, Path p) o <-> In (n, Path p) l) by (apply O; now left).
    destruct (run_same l w o D R O1) as [R' M'].
    cbn in L. apply IH with (k := pred k); auto.
    + intros o' I. apply O. now right.
    + lia.
    + apply run_less; auto. destruct X as (U & LU & F). exists U. split; auto. lia.
Qed.

Lemma kept_fine l w o : ready l w -> manifest_same w -> (forall n p, In (n, Path p) o <-> In (n, Path p) l) ->
  (forall n p, In (n, Path p) l -> fine w n p) ->
  snd (resolve_versions fingerprint true false true o w) = Kept.
Proof.
  intros R (mf & M & Sm) O F. unfold resolve_versions. rewrite M, Sm. cbn [andb negb].
  rewrite check_fine; auto. intros n p I. apply F, O, I.
Qed.
End Inv.
