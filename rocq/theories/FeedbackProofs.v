(** Proofs about the diagnostics the editor shows. *)
From Coq Require Import NArith Bool List Lia.
From Verif Require Import Text TextProofs Feedback FeedbackSpec.
Import ListNotations.

Lemma eqb_refl p : text_eqb p p = true. Proof. apply text_eqb_refl. Qed.
Lemma mem_in p s : mem p s = true <-> In p s.
Proof.
  unfold mem. rewrite existsb_exists. split.
  - intros (x & Hx & E). apply text_eqb_eq in E. subst. exact Hx.
  - intros H. exists p. split; [exact H|apply eqb_refl].
Qed.
Lemma mem_false p s : mem p s = false <-> ~ In p s.
Proof. rewrite <- mem_in. destruct (mem p s); split; congruence. Qed.
Lemma mem_del p q s : mem p (del q s) = mem p s && negb (text_eqb q p).
Proof.
  unfold mem, del. induction s as [|x s IH]; [reflexivity|]. cbn [filter existsb].
  destruct (text_eqb q x) eqn:E; cbn [negb existsb].
  - rewrite IH. apply text_eqb_eq in E. subst x. destruct (text_eqb p q) eqn:F; [|reflexivity].
    apply text_eqb_eq in F. subst. rewrite eqb_refl. cbn. rewrite andb_false_r. reflexivity.
  - rewrite IH. destruct (text_eqb p x) eqn:F; [|reflexivity]. apply text_eqb_eq in F. subst. rewrite E. reflexivity.
Qed.
Lemma get_put {A} p q (a : A) m : get p (put q a m) = if text_eqb p q then Some a else get p m.
Proof. reflexivity. Qed.
Lemma get_some_in {A} p (a : A) m : get p m = Some a -> In (p, a) m.
Proof.
  induction m as [|[q b] m IH]; intros H; [discriminate|]. cbn [get] in H. destruct (text_eqb p q) eqn:E.
  - apply text_eqb_eq in E. injection H as <-. subst. left. reflexivity.
  - right. auto.
Qed.
Lemma get_none_in {A} p (m : list (text * A)) : get p m = None <-> ~ In p (map fst m).
Proof.
  induction m as [|[q b] m IH]; [split; [intros _ []|reflexivity]|]. cbn [get map fst In].
  destruct (text_eqb p q) eqn:E.
  - apply text_eqb_eq in E. subst. split; [discriminate|intros H; exfalso; apply H; left; reflexivity].
  - rewrite IH. split; [intros H [X|X]; [subst; rewrite eqb_refl in E; discriminate|auto]|tauto].
Qed.

(** What a feedback says about one file. *)
Definition about (p : text) (f : feedback) : option (list diagnostic) := get p (diagnostics f).
Definition more (l : list diagnostic) (o : option (list diagnostic)) : option (list diagnostic) :=
  match l with
  | [] => o
  | _ => Some (match o with Some ds => ds ++ l | None => l end)
  end.
Lemma more_app l l' o : more (l ++ l') o = more l' (more l o).
Proof.
  destruct l as [|a l]; [reflexivity|]. cbn [app more]. destruct l' as [|b l']; [rewrite app_nil_r; reflexivity|].
  cbn [more]. destruct o as [ds|]; cbn; [rewrite <- app_assoc|]; reflexivity.
Qed.
Lemma about_unset p q f : about p (unset_existing_diagnostics q f) = if text_eqb p q then Some [] else about p f.
Proof. reflexivity. Qed.
Lemma about_append p q d f : about p (append_diagnostic q d f) = if text_eqb p q then more [d] (about p f) else about p f.
Proof.
  unfold about, append_diagnostic. cbn [diagnostics]. rewrite get_put.
  destruct (text_eqb p q) eqn:E; [|reflexivity]. apply text_eqb_eq in E. subst. reflexivity.
Qed.
Lemma about_unset_all p ps : forall f,
  about p (fold_left (fun f q => unset_existing_diagnostics q f) ps f) = if mem p ps then Some [] else about p f.
Proof.
  induction ps as [|q ps IH]; intros f; [reflexivity|]. cbn [fold_left mem existsb]. rewrite IH.
  unfold mem. destruct (existsb (text_eqb p) ps); [rewrite orb_true_r; reflexivity|]. rewrite orb_false_r. apply about_unset.
Qed.
Lemma messages_unset_all ps : forall f,
  messages (fold_left (fun f q => unset_existing_diagnostics q f) ps f) = messages f.
Proof. induction ps as [|q ps IH]; intros f; [reflexivity|]. cbn [fold_left]. rewrite IH. reflexivity. Qed.

(** The state and what is said about one file after each loop. *)
Lemma insert_warnings ws : forall k f, exists fw,
  fst (fold_left insert_warning ws (k, f)) = Keeper fw (files_with_errors k) (skipped_files_diagnostics k) (open_files k) /\
  (forall p, mem p fw = mem p (files_with_warnings k) || existsb (located p) ws) /\
  (forall p, about p (snd (fold_left insert_warning ws (k, f))) = more (filter (located p) ws) (about p f)) /\
  messages (snd (fold_left insert_warning ws (k, f))) = messages f.
Proof.
  induction ws as [|d ws IH]; intros k f.
  - exists (files_with_warnings k). split; [destruct k; reflexivity|split; [intros p; rewrite orb_false_r; reflexivity|split; reflexivity]].
  - cbn [fold_left insert_warning]. destruct (d_path d) as [q|] eqn:E.
    + destruct (IH (Keeper (q :: files_with_warnings k) (files_with_errors k) (skipped_files_diagnostics k) (open_files k))
        (append_diagnostic q d f)) as (fw & H1 & HW & H2 & H3).
      exists fw. split; [exact H1|]. split; [|split; [|exact H3]].
      * intros p. rewrite HW. cbn [files_with_warnings mem existsb]. unfold located at 2. rewrite E. fold (mem p (files_with_warnings k)).
        destruct (text_eqb p q), (mem p (files_with_warnings k)); reflexivity.
      * intros p. rewrite H2. cbn [filter]. unfold located at 2. rewrite E.
        rewrite about_append. destruct (text_eqb p q); [|reflexivity].
        change (d :: filter (located p) ws) with ([d] ++ filter (located p) ws). rewrite more_app. reflexivity.
    + destruct (IH k f) as (fw & H1 & HW & H2 & H3). exists fw. split; [exact H1|]. split; [|split; [|exact H3]]; intros p.
      * rewrite HW. cbn [existsb]. unfold located at 2. rewrite E. reflexivity.
      * rewrite H2. cbn [filter]. unfold located at 2. rewrite E. reflexivity.
Qed.
Lemma insert_errors ds : forall k f,
  files_with_warnings (fst (fold_left insert_error ds (k, f))) = files_with_warnings k /\
  (forall p, mem p (files_with_errors (fst (fold_left insert_error ds (k, f)))) =
     mem p (files_with_errors k) || existsb (located p) ds) /\
  skipped_files_diagnostics (fst (fold_left insert_error ds (k, f))) = skipped_files_diagnostics k /\
  open_files (fst (fold_left insert_error ds (k, f))) = open_files k /\
  (forall p, about p (snd (fold_left insert_error ds (k, f))) = more (filter (located p) ds) (about p f)) /\
  messages (snd (fold_left insert_error ds (k, f))) =
    messages f ++ filter (fun d => match d_path d with None => true | _ => false end) ds.
Proof.
  induction ds as [|d ds IH]; intros k f.
  - cbn. repeat split; try reflexivity; [intros p; rewrite orb_false_r; reflexivity|rewrite app_nil_r; reflexivity].
  - cbn [fold_left insert_error]. destruct (d_path d) as [q|] eqn:E.
    + destruct (IH (Keeper (files_with_warnings k) (q :: files_with_errors k) (skipped_files_diagnostics k) (open_files k))
        (append_diagnostic q d f)) as (H1 & H2 & H3 & H4 & H5 & H6).
      cbn [files_with_warnings files_with_errors skipped_files_diagnostics open_files] in *.
      split; [exact H1|]. split; [|split; [exact H3|split; [exact H4|split]]].
      * intros p. rewrite H2. cbn [mem existsb]. unfold located at 2. rewrite E. fold (mem p (files_with_errors k)).
        destruct (text_eqb p q), (mem p (files_with_errors k)), (existsb (located p) ds); reflexivity.
      * intros p. rewrite H5. cbn [filter]. unfold located at 2. rewrite E. rewrite about_append.
        destruct (text_eqb p q); [|reflexivity].
        change (d :: filter (located p) ds) with ([d] ++ filter (located p) ds). rewrite more_app. reflexivity.
      * rewrite H6. cbn [filter]. rewrite E. reflexivity.
    + destruct (IH k (append_message d f)) as (H1 & H2 & H3 & H4 & H5 & H6).
      split; [exact H1|]. split; [|split; [exact H3|split; [exact H4|split]]].
      * intros p. rewrite H2. cbn [existsb]. unfold located at 2. rewrite E. reflexivity.
      * intros p. rewrite H5. cbn [filter]. unfold located at 2. rewrite E. reflexivity.
      * rewrite H6. cbn [filter append_message messages]. rewrite E, <- app_assoc. reflexivity.
Qed.
Lemma unset_compileds l : forall k f,
  (forall p, mem p (files_with_warnings (fst (fold_left unset_compiled l (k, f)))) = mem p (files_with_warnings k) && negb (mem p l)) /\
  files_with_errors (fst (fold_left unset_compiled l (k, f))) = files_with_errors k /\
  skipped_files_diagnostics (fst (fold_left unset_compiled l (k, f))) = skipped_files_diagnostics k /\
  open_files (fst (fold_left unset_compiled l (k, f))) = open_files k /\
  (forall p, about p (snd (fold_left unset_compiled l (k, f))) =
     if mem p l && mem p (files_with_warnings k) then Some [] else about p f) /\
  messages (snd (fold_left unset_compiled l (k, f))) = messages f.
Proof.
  induction l as [|q l IH]; intros k f.
  - cbn. repeat split; try reflexivity. intros p. rewrite andb_true_r. reflexivity.
  - cbn [fold_left unset_compiled].
    specialize (IH (Keeper (del q (files_with_warnings k)) (files_with_errors k) (skipped_files_diagnostics k) (open_files k))
        (if mem q (files_with_warnings k) then unset_existing_diagnostics q f else f)).
    cbn [files_with_warnings files_with_errors skipped_files_diagnostics open_files] in IH.
    destruct IH as (H1 & H2 & H3 & H4 & H5 & H6).
    split; [|split; [exact H2|split; [exact H3|split; [exact H4|split]]]].
    + intros p. rewrite H1. rewrite mem_del. cbn [mem existsb]. fold (mem p l).
      destruct (text_eqb q p) eqn:E.
      * apply text_eqb_eq in E. subst. rewrite eqb_refl. cbn. destruct (mem p (files_with_warnings k)), (mem p l); reflexivity.
      * assert (E' : text_eqb p q = false) by (apply text_eqb_neq; apply text_eqb_neq in E; congruence).
        rewrite E'. cbn. rewrite andb_true_r. reflexivity.
    + intros p. rewrite H5. rewrite mem_del. cbn [mem existsb]. fold (mem p l).
      destruct (text_eqb p q) eqn:E.
      * apply text_eqb_eq in E. subst q. rewrite eqb_refl. cbn [negb]. rewrite andb_false_r, andb_false_r. cbn [orb andb].
        destruct (mem p (files_with_warnings k)); [rewrite about_unset, eqb_refl; reflexivity|reflexivity].
      * assert (E' : text_eqb q p = false) by (apply text_eqb_neq; apply text_eqb_neq in E; congruence).
        rewrite E'. cbn [negb orb]. rewrite andb_true_r.
        destruct (mem p l && mem p (files_with_warnings k)); [reflexivity|].
        destruct (mem q (files_with_warnings k)); [rewrite about_unset, E; reflexivity|reflexivity].
    + rewrite H6. destruct (mem q (files_with_warnings k)); reflexivity.
Qed.

(** [response] as a whole. *)
Lemma response_spec k c ws :
  exists fw,
  fst (response k c ws) =
    Keeper fw (match c with Yes _ => [] | No => files_with_errors k end)
              (match c with Yes _ => [] | No => skipped_files_diagnostics k end) (open_files k) /\
  (forall p, mem p fw = mem p (files_with_warnings k) && negb (match c with Yes l => mem p l | No => false end) || existsb (located p) ws) /\
  (forall p, about p (snd (response k c ws)) = more (filter (located p) ws)
     (match c with
      | No => None
      | Yes l => if mem p (map fst (skipped_files_diagnostics k)) || mem p (files_with_errors k)
                    || (mem p l && mem p (files_with_warnings k)) then Some [] else None
      end)) /\
  messages (snd (response k c ws)) = [].
Proof.
  unfold response. destruct c as [l|].
  - pose proof (unset_compileds l k no_feedback) as (H1 & H2 & H3 & H4 & H5 & H6).
    destruct (fold_left unset_compiled l (k, no_feedback)) as [k1 f1]. cbn [fst snd] in *.
    cbn [unset_errors unset_skipped_files files_with_warnings files_with_errors skipped_files_diagnostics open_files].
    match goal with |- context [fold_left insert_warning ws (?k', ?f')] =>
      destruct (insert_warnings ws k' f') as (fw & A & W & B & C) end.
    exists fw. cbn [files_with_errors skipped_files_diagnostics open_files] in *. split; [etransitivity; [exact A|rewrite H4; reflexivity]|]. split; [intros p; rewrite W; cbn [files_with_warnings]; rewrite H1; reflexivity|]. split.
    + intros p. rewrite B. f_equal. rewrite !about_unset_all, H5, H2, H3. unfold about at 1, no_feedback. cbn [diagnostics get].
      destruct (mem p (map fst (skipped_files_diagnostics k))), (mem p (files_with_errors k)), (mem p l && mem p (files_with_warnings k)); reflexivity.
    + rewrite C, !messages_unset_all, H6. reflexivity.
  - destruct (insert_warnings ws k no_feedback) as (fw & A & W & B & C). exists fw.
    split; [exact A|split; [intros p; rewrite W, andb_true_r; reflexivity|split; [exact B|exact C]]].
Qed.

Lemma elements_spec s : NoDup (elements s) /\ forall p, In p (elements s) <-> In p s.
Proof.
  induction s as [|q s [N I]]; [split; [constructor|tauto]|]. cbn [elements fold_right]. fold (elements s).
  destruct (mem q (elements s)) eqn:E.
  - split; [exact N|]. intros p. rewrite I. cbn. apply mem_in in E. rewrite I in E. split; [tauto|intros [<-|H]; auto].
  - apply mem_false in E. split; [constructor; assumption|]. intros p. cbn. rewrite I. tauto.
Qed.
Lemma append_skipped m p : forall ps f, NoDup ps ->
  about p (fold_left (fun f q => match get q m with Some d => append_diagnostic q d f | None => f end) ps f) =
  more (if mem p ps then match get p m with Some d => [d] | None => [] end else []) (about p f) /\
  messages (fold_left (fun f q => match get q m with Some d => append_diagnostic q d f | None => f end) ps f) = messages f.
Proof.
  induction ps as [|q ps IH]; intros f N; [split; reflexivity|]. inversion N as [|? ? Hq N']; subst.
  cbn [fold_left mem existsb]. fold (mem p ps).
  destruct (IH (match get q m with Some d => append_diagnostic q d f | None => f end) N') as [A B].
  rewrite A, B. split; [|destruct (get q m); reflexivity].
  destruct (text_eqb p q) eqn:E.
  - apply text_eqb_eq in E. subst q. cbn [orb]. rewrite (proj2 (mem_false p ps) Hq).
    cbn [more]. destruct (get p m) as [d|]; [rewrite about_append, eqb_refl; reflexivity|reflexivity].
  - cbn [orb]. f_equal. destruct (get q m) as [d|]; [rewrite about_append, E|]; reflexivity.
Qed.

(** [build_with_error] as a whole. *)
Lemma failure_spec k e c ws :
  exists fw fe,
  fst (build_with_error k e c ws) = Keeper fw fe (skipped e) (open_files k) /\
  (forall p, mem p fw = mem p (files_with_warnings k) && negb (match c with Yes l => mem p l | No => false end) || existsb (located p) ws) /\
  (forall p, mem p fe = existsb (located p) (to_diagnostics e)) /\
  (forall p, about p (snd (build_with_error k e c ws)) =
     more (if mem p (open_files k) then match get p (skipped e) with Some d => [d] | None => [] end else [])
     (more (filter (located p) (to_diagnostics e))
        (if match c with No => mem p (map fst (skipped_files_diagnostics k)) || mem p (files_with_errors k) | Yes _ => false end
         then Some [] else about p (snd (response k c ws))))) /\
  messages (snd (build_with_error k e c ws)) = filter (fun d => match d_path d with None => true | _ => false end) (to_diagnostics e).
Proof.
  unfold build_with_error. destruct (response_spec k c ws) as (fw & A & W & B & C).
  destruct (response k c ws) as [k1 f1]. cbn [fst snd] in *. subst k1.
  cbn [unset_errors unset_skipped_files files_with_warnings files_with_errors skipped_files_diagnostics open_files].
  match goal with |- context [fold_left insert_error ?ds (?k', ?f')] =>
    pose proof (insert_errors ds k' f') as (H1 & H2 & H3 & H4 & H5 & H6); destruct (fold_left insert_error ds (k', f')) as [k2 f2] end.
  cbn [fst snd files_with_warnings files_with_errors skipped_files_diagnostics open_files] in *.
  exists (files_with_warnings k2), (files_with_errors k2). rewrite H4.
  split; [reflexivity|]. split; [intros p; rewrite H1; apply W|]. split; [intros p; rewrite H2; reflexivity|].
  destruct (elements_spec (open_files k)) as [EN EI]. split.
  - intros p. rewrite (proj1 (append_skipped (skipped e) p (elements (open_files k)) f2 EN)).
    assert (EM : mem p (elements (open_files k)) = mem p (open_files k)).
    { destruct (mem p (open_files k)) eqn:E; [apply mem_in; apply EI; apply mem_in; exact E|apply mem_false; rewrite EI; apply mem_false; exact E]. }
    rewrite EM. f_equal. rewrite H5. f_equal. rewrite !about_unset_all.
    destruct c as [l|].
    + cbn. reflexivity.
    + destruct (mem p (map fst (skipped_files_diagnostics k))), (mem p (files_with_errors k)); reflexivity.
  - rewrite (proj2 (append_skipped (skipped e) [] (elements (open_files k)) f2 EN)). rewrite H6, !messages_unset_all, C. reflexivity.
Qed.

(** ** Errors *)
Lemma filter_none {A} (f : A -> bool) l : (forall a, In a l -> f a = false) -> filter f l = [].
Proof.
  induction l as [|a l IH]; intros H; [reflexivity|]. cbn. rewrite (H a (or_introl eq_refl)). apply IH. intros b Hb. apply H. right. exact Hb.
Qed.
Lemma filter_all {A} (f : A -> bool) l : (forall a, In a l -> f a = true) -> filter f l = l.
Proof.
  induction l as [|a l IH]; intros H; [reflexivity|]. cbn. rewrite (H a (or_introl eq_refl)). f_equal. apply IH. intros b Hb. apply H. right. exact Hb.
Qed.
Lemma existsb_filter {A} (f : A -> bool) l : existsb f l = false <-> filter f l = [].
Proof.
  induction l as [|a l IH]; [split; reflexivity|]. cbn. destruct (f a); cbn; [split; discriminate|exact IH].
Qed.

Record good (k : keeper) (shown : display) (failure : option error) (open : text -> bool) : Prop := {
  g_errors : forall p, mem p (files_with_errors k) = match failure with Some e => existsb (located p) (to_diagnostics e) | None => false end;
  g_skipped : skipped_files_diagnostics k = match failure with Some e => skipped e | None => [] end;
  g_open : forall p, mem p (open_files k) = open p;
  g_sound : match failure with Some e => sound_error e | None => True end;
  g_shown : forall p, filter is_error (shown p) = errors_at p failure (open p) }.
Definition step_open (open : text -> bool) (ev : event) : text -> bool :=
  fun p => match ev with
           | Opened p' => if text_eqb p p' then true else open p
           | Closed p' => if text_eqb p p' then false else open p
           | _ => open p
           end.

Lemma nothing_else k shown failure open p : good k shown failure open ->
  mem p (map fst (skipped_files_diagnostics k)) = false -> mem p (files_with_errors k) = false ->
  filter is_error (shown p) = [].
Proof.
  intros G Hs He. rewrite (g_shown _ _ _ _ G). unfold errors_at. destruct failure as [e|]; [|reflexivity].
  rewrite (g_errors _ _ _ _ G) in He. apply existsb_filter in He. rewrite He. cbn [app].
  rewrite (g_skipped _ _ _ _ G) in Hs. apply mem_false in Hs. apply get_none_in in Hs. rewrite Hs. destruct (open p); reflexivity.
Qed.
Lemma warnings_clean ws p : (forall d, In d ws -> is_error d = false) -> filter is_error (filter (located p) ws) = [].
Proof. intros H. apply filter_none. intros d Hd. apply filter_In in Hd. apply H. tauto. Qed.
(** What [response] says about a file has no errors; if it says nothing none are shown. *)
Lemma response_clean k shown failure open c ws p : good k shown failure open -> sound_warnings c ws -> c <> No ->
  filter is_error (publish (snd (response k c ws)) shown p) = [] /\
  match about p (snd (response k c ws)) with Some l => filter is_error l = [] | None => filter is_error (shown p) = [] end.
Proof.
  intros G [Hw Hn] Hc. destruct (response_spec k c ws) as (fw & _ & _ & B & _).
  assert (X : match about p (snd (response k c ws)) with Some l => filter is_error l = [] | None => filter is_error (shown p) = [] end).
  { rewrite B. destruct c as [l|]; [|contradiction].
    pose proof (warnings_clean ws p Hw) as W.
    destruct (mem p (map fst (skipped_files_diagnostics k)) || mem p (files_with_errors k)) eqn:E; cbn [orb].
    - destruct (filter (located p) ws); exact W || reflexivity.
    - apply orb_false_iff in E. destruct E as [E1 E2].
      destruct (mem p l && mem p (files_with_warnings k)).
      + destruct (filter (located p) ws); exact W || reflexivity.
      + destruct (filter (located p) ws) as [|d l']; cbn [more]; [|exact W]. apply (nothing_else k shown failure open); assumption. }
  split; [|exact X]. unfold publish. unfold about in X. destruct (get p (diagnostics (snd (response k c ws)))); exact X.
Qed.

Lemma step_good k shown failure open ev : good k shown failure open -> sound_event ev ->
  good (fst (handle k ev)) (publish (snd (handle k ev)) shown) (step_failure failure ev) (step_open open ev).
Proof.
  intros G S.
  assert (Fail : forall e c ws, sound_error e -> sound_warnings c ws ->
    good (fst (build_with_error k e c ws)) (publish (snd (build_with_error k e c ws)) shown) (Some e) open).
  { intros e c ws Se Sw. destruct (failure_spec k e c ws) as (fw & fe & A & W & B & C & _). rewrite A.
    split; cbn [files_with_errors skipped_files_diagnostics open_files].
    - exact B.
    - reflexivity.
    - apply G.
    - exact Se.
    - intros p. unfold publish. change (get p (diagnostics (snd (build_with_error k e c ws)))) with (about p (snd (build_with_error k e c ws))).
      rewrite C. rewrite (g_open _ _ _ _ G). unfold errors_at.
      set (skip := if open p then match get p (skipped e) with Some d => [d] | None => [] end else []).
      assert (Es : filter is_error skip = skip).
      { unfold skip. destruct (open p); [|reflexivity]. destruct (get p (skipped e)) as [d|] eqn:Eg; [|reflexivity].
        apply get_some_in in Eg. destruct (proj2 Se p d Eg) as [Hd _]. cbn. rewrite Hd. reflexivity. }
      assert (Ee : filter is_error (filter (located p) (to_diagnostics e)) = filter (located p) (to_diagnostics e)).
      { apply filter_all. intros d Hd. apply filter_In in Hd. apply (proj1 Se). tauto. }
      rewrite <- more_app. set (errs := filter (located p) (to_diagnostics e)) in *.
      assert (Base : forall o, match o with Some l => filter is_error l = [] | None => filter is_error (shown p) = [] end ->
        filter is_error match more (errs ++ skip) o with Some ds => ds | None => shown p end = errs ++ skip).
      { intros o Ho. destruct (errs ++ skip) as [|d l] eqn:El; cbn [more].
        - destruct o; exact Ho.
        - rewrite <- El. destruct o as [ds|]; [rewrite filter_app, Ho|]; rewrite filter_app, Ee, Es; reflexivity. }
      apply Base. destruct c as [l|].
      + apply (response_clean k shown failure open (Yes l) ws p G Sw). discriminate.
      + rewrite (proj2 Sw eq_refl).
        destruct (mem p (map fst (skipped_files_diagnostics k)) || mem p (files_with_errors k)) eqn:E; [reflexivity|].
        apply orb_false_iff in E. destruct E as [E1 E2]. cbn. apply (nothing_else k shown failure open); assumption. }
  destruct ev as [c ws|e c ws|e|q|q]; cbn [handle step_failure step_open sound_event] in *.
  - destruct c as [l|].
    + destruct (response_spec k (Yes l) ws) as (fw & A & _).
      assert (Cl : forall p, filter is_error (publish (snd (response k (Yes l) ws)) shown p) = []).
      { intros p. apply (response_clean k shown failure open (Yes l) ws p G S). discriminate. }
      rewrite A. split; cbn [files_with_errors skipped_files_diagnostics open_files]; try reflexivity; [apply G|exact Cl].
    + rewrite (proj2 S eq_refl). cbn. destruct k; apply G.
  - apply Fail; tauto.
  - apply Fail; [exact S|]. split; [intros d []|reflexivity].
  - unfold open_file. cbn [fst snd]. split; cbn [files_with_errors skipped_files_diagnostics open_files]; try apply G.
    + intros p. unfold step_open. cbn [mem existsb]. fold (mem p (open_files k)). rewrite (g_open _ _ _ _ G). destruct (text_eqb p q); reflexivity.
    + intros p. unfold publish, step_open. pose proof (g_shown _ _ _ _ G p) as Gs. rewrite (g_skipped _ _ _ _ G).
      pose proof (g_sound _ _ _ _ G) as Gd. destruct failure as [e|]; cbn [errors_at] in *.
      * destruct (get q (skipped e)) as [d|] eqn:Eq.
        -- change (get p (diagnostics (append_diagnostic q d no_feedback))) with (about p (append_diagnostic q d no_feedback)).
           rewrite about_append. destruct (text_eqb p q) eqn:E; [|exact Gs].
           apply text_eqb_eq in E. subst q. rewrite Eq. apply get_some_in in Eq. destruct (proj2 Gd p d Eq) as [Hd Hn].
           rewrite Hn. cbn. rewrite Hd. reflexivity.
        -- cbn [diagnostics no_feedback get]. rewrite Gs. destruct (text_eqb p q) eqn:E; [|reflexivity].
           apply text_eqb_eq in E. subst q. rewrite Eq. destruct (open p); reflexivity.
      * exact Gs.
  - unfold close_file. cbn [fst snd]. split; cbn [files_with_errors skipped_files_diagnostics open_files]; try apply G.
    + intros p. unfold step_open. rewrite mem_del, (g_open _ _ _ _ G). destruct (text_eqb p q) eqn:E.
      * apply text_eqb_eq in E. subst. rewrite eqb_refl. apply andb_false_r.
      * assert (E' : text_eqb q p = false) by (apply text_eqb_neq; apply text_eqb_neq in E; congruence).
        rewrite E'. apply andb_true_r.
    + intros p. unfold publish, step_open. pose proof (g_shown _ _ _ _ G p) as Gs. rewrite (g_skipped _ _ _ _ G).
      pose proof (g_sound _ _ _ _ G) as Gd. destruct failure as [e|]; cbn [errors_at] in *.
      * destruct (get q (skipped e)) as [d|] eqn:Eq.
        -- change (get p (diagnostics (unset_existing_diagnostics q no_feedback))) with (about p (unset_existing_diagnostics q no_feedback)).
           rewrite about_unset. destruct (text_eqb p q) eqn:E; [|exact Gs].
           apply text_eqb_eq in E. subst q. apply get_some_in in Eq. destruct (proj2 Gd p d Eq) as [Hd Hn].
           rewrite Hn. reflexivity.
        -- cbn [diagnostics no_feedback get]. rewrite Gs. destruct (text_eqb p q) eqn:E; [|reflexivity].
           apply text_eqb_eq in E. subst q. rewrite Eq. destruct (open p); reflexivity.
      * exact Gs.
Qed.
Lemma run_good evs : forall k shown failure open, good k shown failure open -> Forall sound_event evs ->
  good (fst (run evs k shown)) (snd (run evs k shown)) (fold_left step_failure evs failure) (fold_left step_open evs open).
Proof.
  induction evs as [|ev evs IH]; intros k shown failure open G S; [exact G|].
  inversion S as [|? ? S1 S2]; subst. cbn [run fold_left]. pose proof (step_good k shown failure open ev G S1) as G1.
  destruct (handle k ev) as [k1 f1]. cbn [fst snd] in G1. apply IH; assumption.
Qed.
Lemma step_open_is evs p : forall open, fold_left step_open evs open p =
  fold_left (fun o ev => match ev with
                         | Opened p' => if text_eqb p p' then true else o
                         | Closed p' => if text_eqb p p' then false else o
                         | _ => o
                         end) evs (open p).
Proof. induction evs as [|ev evs IH]; intros open; [reflexivity|]. cbn [fold_left]. rewrite IH. destruct ev; reflexivity. Qed.
Theorem errors_shown evs p : Forall sound_event evs ->
  filter is_error (shown_after evs p) = errors_at p (last_failure evs) (is_open evs p).
Proof.
  intros S. unfold shown_after.
  assert (G0 : good new_keeper (fun _ => []) None (fun _ => false)).
  { split; reflexivity. }
  pose proof (run_good evs _ _ _ _ G0 S) as G. rewrite (g_shown _ _ _ _ G p). unfold last_failure, is_open.
  rewrite step_open_is. reflexivity.
Qed.

(** ** Warnings *)
(** [p] has no error and was not skipped in the last failure. *)
Definition quiet (p : text) (k : keeper) : Prop :=
  mem p (files_with_errors k) = false /\ get p (skipped_files_diagnostics k) = None.
Lemma no_located p ws : (forall d, In d ws -> d_path d <> Some p) -> filter (located p) ws = [].
Proof.
  intros H. apply filter_none. intros d Hd. unfold located. destruct (d_path d) as [q|] eqn:E; [|reflexivity].
  apply text_eqb_neq. intros ->. exact (H d Hd E).
Qed.
Definition known (p : text) (k : keeper) (shown : display) : Prop :=
  shown p <> [] -> mem p (files_with_warnings k) = true \/ mem p (files_with_errors k) = true \/ mem p (map fst (skipped_files_diagnostics k)) = true.
Lemma located_some p ws d l : filter (located p) ws = d :: l -> existsb (located p) ws = true.
Proof. intros E. destruct (existsb (located p) ws) eqn:X; [reflexivity|]. apply existsb_filter in X. congruence. Qed.
Lemma step_known p k shown ev : known p k shown -> known p (fst (handle k ev)) (publish (snd (handle k ev)) shown).
Proof.
  intros K. unfold known in *.
  assert (Resp : forall c ws, (match about p (snd (response k c ws)) with Some ds => ds | None => shown p end <> []) ->
     mem p (files_with_warnings k) && negb (match c with Yes l => mem p l | No => false end) || existsb (located p) ws = true \/
     (c = No /\ about p (snd (response k c ws)) = None /\ (mem p (files_with_errors k) = true \/ mem p (map fst (skipped_files_diagnostics k)) = true))).
  { intros c ws H. destruct (response_spec k c ws) as (fw & _ & _ & B & _). rewrite B in *.
    destruct (filter (located p) ws) as [|d l] eqn:El; [|left; rewrite (located_some p ws d l El); apply orb_true_r].
    cbn [more] in *. destruct c as [l|].
    - destruct (mem p (map fst (skipped_files_diagnostics k))) eqn:E1; [exfalso; apply H; reflexivity|].
      destruct (mem p (files_with_errors k)) eqn:E2; [exfalso; apply H; reflexivity|].
      destruct (mem p l && mem p (files_with_warnings k)) eqn:E3; [exfalso; apply H; reflexivity|]. cbn [orb] in H.
      left. destruct (K H) as [X|[X|X]]; [|discriminate|discriminate]. rewrite X in *. rewrite andb_true_r in E3. rewrite E3. reflexivity.
    - destruct (K H) as [X|X]; [left; rewrite X; reflexivity|right; auto]. }
  assert (Fail : forall e c ws, publish (snd (build_with_error k e c ws)) shown p <> [] ->
    mem p (files_with_warnings (fst (build_with_error k e c ws))) = true \/
    mem p (files_with_errors (fst (build_with_error k e c ws))) = true \/
    mem p (map fst (skipped_files_diagnostics (fst (build_with_error k e c ws)))) = true).
  { intros e c ws H. destruct (failure_spec k e c ws) as (fw & fe & A & W & B & C & _). rewrite A.
    cbn [files_with_warnings files_with_errors skipped_files_diagnostics]. rewrite W, B.
    unfold publish in H. change (get p (diagnostics (snd (build_with_error k e c ws)))) with (about p (snd (build_with_error k e c ws))) in H.
    rewrite C in H.
    destruct (filter (located p) (to_diagnostics e)) as [|d l] eqn:El; [|right; left; exact (located_some p _ d l El)].
    destruct (get p (skipped e)) as [d|] eqn:Eg.
    { right; right. apply mem_in. apply get_some_in in Eg. apply (in_map fst) in Eg. exact Eg. }
    assert (X : more (if mem p (open_files k) then @nil diagnostic else []) (more [] (if match c with No => mem p (map fst (skipped_files_diagnostics k)) || mem p (files_with_errors k) | Yes _ => false end
         then Some [] else about p (snd (response k c ws)))) = if match c with No => mem p (map fst (skipped_files_diagnostics k)) || mem p (files_with_errors k) | Yes _ => false end
         then Some [] else about p (snd (response k c ws))) by (destruct (mem p (open_files k)); reflexivity).
    rewrite X in H. clear X.
    destruct (match c with No => mem p (map fst (skipped_files_diagnostics k)) || mem p (files_with_errors k) | Yes _ => false end) eqn:Ec; [exfalso; apply H; reflexivity|].
    destruct (Resp c ws H) as [Y|(-> & _ & [Y|Y])]; [left; exact Y| |]; rewrite Y in Ec; try rewrite orb_true_r in Ec; discriminate. }
  destruct ev as [c ws|e c ws|e|q|q]; cbn [handle].
  - intros H. unfold publish in H. change (get p (diagnostics (snd (response k c ws)))) with (about p (snd (response k c ws))) in H.
    destruct (Resp c ws H) as [X|(-> & _ & X)]; destruct (response_spec k) with (c := c) (ws := ws) as (fw & A & W & _) || destruct (response_spec k No ws) as (fw & A & W & _);
      rewrite A; cbn [files_with_warnings files_with_errors skipped_files_diagnostics]; [left; rewrite W; exact X|tauto].
  - apply Fail.
  - apply Fail.
  - unfold open_file, publish. cbn [fst snd files_with_warnings files_with_errors skipped_files_diagnostics].
    destruct (get q (skipped_files_diagnostics k)) as [d|] eqn:E; [|exact K].
    change (get p (diagnostics (append_diagnostic q d no_feedback))) with (about p (append_diagnostic q d no_feedback)).
    rewrite about_append. destruct (text_eqb p q) eqn:F; [|exact K]. intros _. right; right. apply text_eqb_eq in F. subst.
    apply mem_in. apply get_some_in in E. apply (in_map fst) in E. exact E.
  - unfold close_file, publish. cbn [fst snd files_with_warnings files_with_errors skipped_files_diagnostics].
    destruct (get q (skipped_files_diagnostics k)) as [d|] eqn:E; [|exact K].
    change (get p (diagnostics (unset_existing_diagnostics q no_feedback))) with (about p (unset_existing_diagnostics q no_feedback)).
    rewrite about_unset. destruct (text_eqb p q) eqn:F; [|exact K]. intros H; exfalso; apply H; reflexivity.
Qed.
Lemma run_known p evs : forall k shown, known p k shown -> known p (fst (run evs k shown)) (snd (run evs k shown)).
Proof.
  induction evs as [|ev evs IH]; intros k shown K; [exact K|]. cbn [run]. pose proof (step_known p k shown ev K) as K1.
  destruct (handle k ev) as [k1 f1]. apply IH. exact K1.
Qed.
Lemma run_app evs evs' : forall k shown, run (evs ++ evs') k shown = run evs' (fst (run evs k shown)) (snd (run evs k shown)).
Proof. induction evs as [|ev evs IH]; intros k shown; [reflexivity|]. cbn [app run]. destruct (handle k ev). apply IH. Qed.

(** A file that is compiled again shows exactly its new warnings, if the build succeeds. *)
Lemma compiled_shows k shown p l ws : known p k shown -> In p l ->
  publish (snd (response k (Yes l) ws)) shown p = filter (located p) ws /\ quiet p (fst (response k (Yes l) ws)).
Proof.
  intros K Hl. destruct (response_spec k (Yes l) ws) as (fw & A & _ & B & _). rewrite A. split; [|split; reflexivity].
  unfold publish. change (get p (diagnostics (snd (response k (Yes l) ws)))) with (about p (snd (response k (Yes l) ws))).
  rewrite B. apply mem_in in Hl. rewrite Hl. cbn [andb].
  destruct (mem p (map fst (skipped_files_diagnostics k))) eqn:E1; [cbn; destruct (filter (located p) ws); reflexivity|].
  destruct (mem p (files_with_errors k)) eqn:E2; [cbn; destruct (filter (located p) ws); reflexivity|].
  destruct (mem p (files_with_warnings k)) eqn:E3; [cbn; destruct (filter (located p) ws); reflexivity|].
  cbn [orb]. destruct (filter (located p) ws); [|reflexivity]. cbn. destruct (shown p) eqn:Es; [reflexivity|].
  assert (X : shown p <> []) by congruence. destruct (K X) as [Y|[Y|Y]]; congruence.
Qed.
(** Without errors of its own a file shows the warnings of the last compilation. *)
Lemma step_warned p k shown ev : quiet p k -> known p k shown -> ~ blames p ev ->
  quiet p (fst (handle k ev)) /\ publish (snd (handle k ev)) shown p = step_warnings p (shown p) ev.
Proof.
  intros Q K T. pose proof Q as [Qe Qs].
  assert (Qm : mem p (map fst (skipped_files_diagnostics k)) = false) by (apply mem_false; apply get_none_in; exact Qs).
  assert (Resp : forall c ws, match about p (snd (response k c ws)) with Some ds => ds | None => shown p end = step_warnings p (shown p) (Answered c ws)).
  { intros c ws. destruct (response_spec k c ws) as (fw & _ & _ & B & _). rewrite B. cbn [step_warnings]. unfold reported. rewrite Qe, Qm.
    destruct (filter (located p) ws) as [|d l] eqn:El; cbn [more].
    - destruct c as [l|]; [|reflexivity]. cbn [orb]. fold (mem p l).
      destruct (mem p l) eqn:E1; [|reflexivity]. cbn [andb].
      destruct (mem p (files_with_warnings k)) eqn:E2; [reflexivity|].
      destruct (shown p) eqn:Es; [reflexivity|]. assert (X : shown p <> []) by congruence. destruct (K X) as [Y|[Y|Y]]; congruence.
    - destruct c as [l'|]; [cbn [orb]; destruct (mem p l' && mem p (files_with_warnings k)); reflexivity|reflexivity]. }
  assert (Fail : forall e c ws, ~ ((exists d, In d (to_diagnostics e) /\ d_path d = Some p) \/ In p (map fst (skipped e))) ->
    quiet p (fst (build_with_error k e c ws)) /\ publish (snd (build_with_error k e c ws)) shown p = step_warnings p (shown p) (Answered c ws)).
  { intros e c ws H1. destruct (failure_spec k e c ws) as (fw & fe & A & W & B & C & _). rewrite A.
    assert (N1 : filter (located p) (to_diagnostics e) = []).
    { apply no_located. intros d Hd E. apply H1. left. exists d. auto. }
    assert (N2 : get p (skipped e) = None) by (apply get_none_in; tauto).
    split.
    - split; cbn [files_with_errors skipped_files_diagnostics]; [|exact N2]. rewrite B. apply existsb_filter. exact N1.
    - rewrite <- Resp. unfold publish. change (get p (diagnostics (snd (build_with_error k e c ws)))) with (about p (snd (build_with_error k e c ws))).
      rewrite C, N1, N2, Qe, Qm. destruct (mem p (open_files k)), c; reflexivity. }
  destruct ev as [c ws|e c ws|e|q|q]; cbn [handle blames] in *.
  - split; [|apply Resp].
    destruct (response_spec k c ws) as (fw & A & _). rewrite A. destruct c; split; cbn; auto.
  - apply Fail; tauto.
  - apply (Fail e No []); exact T.
  - split; [split; assumption|]. unfold open_file, publish. cbn [snd step_warnings].
    destruct (get q (skipped_files_diagnostics k)) as [d|] eqn:E; [|reflexivity].
    change (get p (diagnostics (append_diagnostic q d no_feedback))) with (about p (append_diagnostic q d no_feedback)).
    rewrite about_append. destruct (text_eqb p q) eqn:F; [|reflexivity]. apply text_eqb_eq in F. subst. congruence.
  - split; [split; assumption|]. unfold close_file, publish. cbn [snd step_warnings].
    destruct (get q (skipped_files_diagnostics k)) as [d|] eqn:E; [|reflexivity].
    change (get p (diagnostics (unset_existing_diagnostics q no_feedback))) with (about p (unset_existing_diagnostics q no_feedback)).
    rewrite about_unset. destruct (text_eqb p q) eqn:F; [|reflexivity]. apply text_eqb_eq in F. subst. congruence.
Qed.
Lemma run_warned p evs : forall k shown, quiet p k -> known p k shown -> Forall (fun ev => ~ blames p ev) evs ->
  snd (run evs k shown) p = fold_left (step_warnings p) evs (shown p).
Proof.
  induction evs as [|ev evs IH]; intros k shown Q K T; [reflexivity|]. inversion T as [|? ? T1 T2]; subst.
  cbn [run fold_left]. destruct (step_warned p k shown ev Q K T1) as [Q1 E1]. pose proof (step_known p k shown ev K) as K1.
  destruct (handle k ev) as [k1 f1]. cbn [fst snd] in *. rewrite (IH k1 _ Q1 K1 T2). rewrite E1. reflexivity.
Qed.
Theorem warnings_shown before l ws after p : In p l -> Forall (fun ev => ~ blames p ev) after ->
  shown_after (before ++ Answered (Yes l) ws :: after) p = fold_left (step_warnings p) after (filter (located p) ws).
Proof.
  intros Hl T. unfold shown_after. rewrite run_app. cbn [run handle].
  assert (K : known p (fst (run before new_keeper (fun _ => []))) (snd (run before new_keeper (fun _ => [])))).
  { apply run_known. intros H; exfalso; apply H; reflexivity. }
  destruct (run before new_keeper (fun _ => [])) as [k shown]. cbn [fst snd] in *.
  destruct (compiled_shows k shown p l ws K Hl) as [E Q]. pose proof (step_known p k shown (Answered (Yes l) ws) K) as K1.
  cbn [handle] in K1. destruct (response k (Yes l) ws) as [k1 f1]. cbn [fst snd] in *.
  rewrite (run_warned p after k1 _ Q K1 T). rewrite E. reflexivity.
Qed.
