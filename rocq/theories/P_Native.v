(** C93, C94, C95, C96: native files that conflict, what is copied of them, and what the build directory has of them. *)
From Coq Require Import NArith Arith Bool String List Lia Permutation Sorted.
From Verif Require Import Text TextProofs Native NativeSpec NativeProofs NativeCopyProofs.
Import ListNotations.
Local Open Scope nat_scope.
Local Open Scope list_scope.

(** ** Values for examples *)
Definition root (n : string) : path := Path [] (str n).
Definition inside (d n : string) : path := Path [str d] (str n).
Ltac is_proper := repeat (constructor; cbn); try discriminate; intuition discriminate.
Ltac is_named := split; [reflexivity|]; split; [discriminate|cbn; intuition discriminate].
Ltac is_kind := match goal with |- kind ?e (Path ?ds ?t) => idtac | |- _ => unfold root, inside end;
  apply has_extension_kind; reflexivity.

(** ** C93: copying fails exactly if two files conflict *)
Theorem C93_conflicts_are_found : forall check now l d, well_named l -> NoDup (map fst d) ->
  match run check now l d with
  | (_, inl _) => conflict_free check l
  | (_, inr e) => exists before f g after, l = before ++ g :: after /\ In f before /\ conflict check f g
      /\ reported check e (relative f) (relative g) /\ conflict_free check before
  end.
Proof.
  intros check now l d W N. pose proof (run_spec check now l d W N) as R. destruct (run check now l d) as [d' [[ps ex]|e]].
  - apply R.
  - destruct R as (a & f & b & g & E & I & C & RE & F & _). exists a, f, g, b. auto 7.
Qed.
Print Assumptions C93_conflicts_are_found.

(** Whether it fails is the same whatever the order of the walk, the time and what was copied before; and it never panics. *)
Definition fails {A B} (r : files * (A + B)) : bool := match snd r with inl _ => false | inr _ => true end.
Theorem C93_in_any_order : forall check now now' l l' d d', well_named l -> NoDup (map fst d) -> NoDup (map fst d') ->
  Permutation l l' -> fails (run check now l d) = fails (run check now' l' d').
Proof.
  assert (X : forall check now l d, well_named l -> NoDup (map fst d) -> (fails (run check now l d) = false <-> conflict_free check l)).
  { intros check now l d W N. pose proof (C93_conflicts_are_found check now l d W N) as R. unfold fails.
    destruct (run check now l d) as [d' [[ps ex]|e]]; cbn; [tauto|]. split; [discriminate|]. intros F.
    destruct R as (a & f & g & b & E & I & C & _). exfalso. eapply free_not; eauto. }
  intros check now now' l l' d d' W N N' P. assert (W' : well_named l') by (eapply Permutation_Forall; eauto).
  pose proof (X check now l d W N) as A. pose proof (X check now' l' d' W' N') as B.
  destruct (fails (run check now l d)), (fails (run check now' l' d')); auto.
  - destruct B as [B _]. specialize (B eq_refl). destruct A as [_ A]. apply A. eapply free_perm; [apply Permutation_sym|]; eauto.
  - destruct A as [A _]. specialize (A eq_refl). destruct B as [_ B]. symmetry. apply B. eapply free_perm; eauto.
Qed.
Print Assumptions C93_in_any_order.

Theorem C93_no_panic : forall check now l d, well_named l -> NoDup (map fst d) -> snd (run check now l d) <> inr Panic.
Proof.
  intros check now l d W N E. pose proof (C93_conflicts_are_found check now l d W N) as R. destruct (run check now l d) as [d' [x|e]]; cbn in E; [discriminate|].
  injection E as ->. destruct R as (a & f & g & b & _ & _ & _ & R & _). inversion R.
Qed.
Print Assumptions C93_no_panic.

(** Which files conflict, said of their names: native files of the same path, a Gleam module and
    an [.mjs] file of the same path, Erlang files of the same name in any directories, and, if the package is
    one whose modules are checked, a Gleam module and an Erlang file with the name of the
    Erlang module that it becomes. *)
Theorem C93_what_conflicts : forall check f g, conflict check f g <->
  (native (relative f) /\ relative f = relative g)
  \/ (exists ds stem, (named ds stem (str "gleam") (relative f) /\ (named ds stem (str "gleam") (relative g) \/ named ds stem (str "mjs") (relative g)))
        \/ (named ds stem (str "mjs") (relative f) /\ named ds stem (str "gleam") (relative g)))
  \/ (exists ds ds' stem, named ds stem (str "erl") (relative f) /\ named ds' stem (str "erl") (relative g))
  \/ check = true /\ (exists ds ds' m,
        (named ds m (str "gleam") (relative f) /\ named ds' (joined (str "@") (ds ++ [m])) (str "erl") (relative g))
        \/ (named ds' (joined (str "@") (ds ++ [m])) (str "erl") (relative f) /\ named ds m (str "gleam") (relative g))
        \/ exists m', joined (str "@") (ds ++ [m]) = joined (str "@") (ds' ++ [m'])
           /\ named ds m (str "gleam") (relative f) /\ named ds' m' (str "gleam") (relative g)).
Proof.
  assert (ND : ~ In 46%N (str "mjs") /\ ~ In 46%N (str "gleam")) by (split; cbn; intuition discriminate).
  intros check f g. split.
  - intros (o & A & B). inversion A as [p NP|p KP|ds stem p NP|ds stem p NP|ds stem p C NP]; subst; inversion B as [p' NP'|p' KP'|ds' stem' p' NP'|ds' stem' p' NP'|ds' stem' p' C' NP']; subst.
    + left. split; auto; try congruence.
    + left. split; [|congruence]. exists "mjs"%string. split; auto. cbn. tauto.
    + right. left. exists ds', stem'. right. split; auto. try match goal with H : _ = relative f |- _ => rewrite <- H | H : relative f = _ |- _ => rewrite H end. split; [reflexivity|]. split; [apply NP'|apply ND].
    + right. left. exists ds, stem. left. split; auto. right. try match goal with H : _ = relative g |- _ => rewrite <- H | H : relative g = _ |- _ => rewrite H end. split; [reflexivity|]. split; [apply NP|apply ND].
    + match goal with H : _ ++ _ = _ ++ _ |- _ => apply app_inv_tail in H; subst stem' end. right. left. exists ds, stem. auto.
    + right. right. left. eauto.
    + right. right. right. split; auto. exists ds', ds, stem'. right. left. split; auto; congruence.
    + right. right. right. split; auto. exists ds, ds', stem. left. split; auto.
    + right. right. right. split; auto. exists ds, ds', stem. right. right. exists stem'. split; auto; congruence.
  - intros [[NF E]|[(ds & stem & [[A [B|B]]|[A B]])|[(ds & ds' & stem & A & B)|(C & ds & ds' & m & [[A B]|[[A B]|(m' & E & A & B)]])]]].
    + exists (Itself (relative f)). split; [now constructor|rewrite <- E; now constructor].
    + eexists. split; [now apply makes_gleam_mjs with (1 := A)|now apply makes_gleam_mjs with (1 := B)].
    + eexists. split; [now apply makes_gleam_mjs with (1 := A)|]. pose proof B as [E _]. change (stem ++ str ".mjs") with (stem ++ 46%N :: str "mjs").
      rewrite <- E. apply makes_mjs. exists ds, stem. auto.
    + eexists. split; [|now apply makes_gleam_mjs with (1 := B)]. pose proof A as [E _]. change (stem ++ str ".mjs") with (stem ++ 46%N :: str "mjs").
      rewrite <- E. apply makes_mjs. exists ds, stem. auto.
    + eexists. split; eapply makes_erl; eauto.
    + eexists. split; [now apply makes_gleam_erl with (2 := A)|eapply makes_erl; eauto].
    + eexists. split; [eapply makes_erl; eauto|now apply makes_gleam_erl with (2 := B)].
    + exists (Erlang (joined (str "@") (ds ++ [m]))). split; [now apply makes_gleam_erl with (2 := A)|]. rewrite E. now apply makes_gleam_erl with (2 := B).
Qed.
Print Assumptions C93_what_conflicts.

Example C93_example :
  let wibble := File (root "wibble.gleam") 1 0 in
  let mjs := File (root "wibble.mjs") 2 0 in
  let nested := File (inside "a" "wobble.gleam") 3 0 in
  let erl := File (inside "b" "a@wobble.erl") 4 0 in
  let one := File (inside "b" "c.erl") 5 0 in let two := File (root "c.erl") 6 0 in
  let hrl := File (root "c.hrl") 7 0 in
  run true 9 [wibble; hrl; mjs] [] = ([(root "c.hrl", (7%N, 9%N))], inr (ClashingGleamModuleAndNativeFileName (str "wibble") (root "wibble.gleam") (root "wibble.mjs")))
  /\ snd (run true 9 [erl; nested] []) = inr (ClashingGleamModuleAndNativeFileName (str "a/wobble") (inside "a" "wobble.gleam") (inside "b" "a@wobble.erl"))
  /\ snd (run false 9 [erl; nested] []) = inl ([inside "b" "a@wobble.erl"], false)
  /\ snd (run false 9 [one; two] []) = inr (DuplicateNativeErlangModule (str "c") (inside "b" "c.erl") (root "c.erl"))
  /\ snd (run false 9 [hrl; one; hrl] []) = inr (DuplicateSourceFile (str "c.hrl"))
  /\ snd (run true 9 [wibble; hrl; nested; one] []) = inl ([inside "b" "c.erl"], false).
Proof. vm_compute. repeat split. Qed.

(** ** C94: what is copied and has to be compiled *)
Theorem C94_what_is_copied : forall check now l d, well_named l -> NoDup (map fst d) ->
  match run check now l d with
  | (d', inl (to_compile, elixir)) =>
      copied now l d d' /\ StronglySorted path_lt to_compile
      /\ (forall p, In p to_compile <-> beam p /\ exists f, In f l /\ outdated d f /\ relative f = p)
      /\ (elixir = true <-> exists f, In f l /\ outdated d f /\ kind "ex" (relative f))
  | (d', inr _) => exists before f g after, l = before ++ g :: after /\ In f before /\ conflict check f g /\ copied now before d d'
  end.
Proof.
  intros check now l d W N. pose proof (run_spec check now l d W N) as R. destruct (run check now l d) as [d' [[ps ex]|e]].
  - destruct R as (_ & C & S & _ & P & X). auto.
  - destruct R as (a & f & b & g & E & I & C & _ & _ & CP). exists a, f, g, b. auto 7.
Qed.
Print Assumptions C94_what_is_copied.

Lemma sorted_unique l : forall l', StronglySorted path_lt l -> StronglySorted path_lt l' -> (forall p, In p l <-> In p l') -> l = l'.
Proof.
  assert (IR : forall p, ~ path_lt p p).
  { intros p L. apply path_cmp_lt in L. assert (path_cmp p p = Eq) by now apply path_cmp_eq. congruence. }
  induction l as [|p l IH]; intros [|q l'] S S' E; auto.
  - exfalso. apply (E q). now left.
  - exfalso. apply (E p). now left.
  - inversion_clear S. inversion_clear S'. rewrite Forall_forall in *.
    assert (p = q) as <-.
    { destruct (proj1 (E p) (or_introl eq_refl)) as [F|F]; [auto|]. destruct (proj2 (E q) (or_introl eq_refl)) as [G|G]; [auto|].
      exfalso. apply (IR p). eapply path_lt_trans; eauto. }
    f_equal. apply IH; auto. intros r. split; intros I.
    + destruct (proj1 (E r) (or_intror I)) as [<-|J]; auto. exfalso. apply (IR p). auto.
    + destruct (proj2 (E r) (or_intror I)) as [<-|J]; auto. exfalso. apply (IR p). auto.
Qed.
Theorem C94_in_any_order : forall check now l l' d d1 d2 r r', well_named l -> NoDup (map fst d) -> Permutation l l' ->
  run check now l d = (d1, inl r) -> run check now l' d = (d2, inl r') ->
  r = r' /\ forall x, In x d1 <-> In x d2.
Proof.
  intros check now l l' d d1 d2 [ps ex] [ps' ex'] W N P R R'.
  assert (W' : well_named l') by (eapply Permutation_Forall; eauto).
  pose proof (C94_what_is_copied check now l d W N) as A. rewrite R in A. pose proof (C94_what_is_copied check now l' d W' N) as B. rewrite R' in B.
  destruct A as ([_ C] & S & T & X), B as ([_ C'] & S' & T' & X').
  assert (IN : forall f, In f l <-> In f l') by (intros f; split; apply Permutation_in; auto using Permutation_sym).
  split.
  - f_equal.
    + apply sorted_unique; auto. intros p. rewrite T, T'. split; intros (B & f & I & H); (split; [auto|]); exists f; (split; [now apply IN|auto]).
    + assert (Y : ex = true <-> ex' = true). { rewrite X, X'. split; intros (f & I & H); exists f; (split; [now apply IN|auto]). }
      destruct ex, ex'; intuition congruence.
  - intros (p & x & t). rewrite C, C'. split.
    + intros [(f & I & H)|[I H]]; [left; exists f; split; [now apply IN|auto]|right; split; auto]. intros (f & J & K). apply H. exists f. split; [now apply IN|auto].
    + intros [(f & I & H)|[I H]]; [left; exists f; split; [now apply IN|auto]|right; split; auto]. intros (f & J & K). apply H. exists f. split; [now apply IN|auto].
Qed.
Print Assumptions C94_in_any_order.

Example C94_example :
  let old := File (root "old.erl") 1 3 in let edited := File (root "edited.ex") 2 7 in
  let new_file := File (inside "b" "new.erl") 3 1 in let js := File (inside "a" "x.mjs") 4 9 in let other := File (root "y.txt") 5 9 in
  let d := [(root "old.erl", (1%N, 5%N)); (root "edited.ex", (0%N, 5%N)); (root "gone.erl", (8%N, 5%N))] in
  run true 10 [old; edited; new_file; js; other] d
  = ([(inside "a" "x.mjs", (4%N, 10%N)); (inside "b" "new.erl", (3%N, 10%N)); (root "edited.ex", (2%N, 10%N)); (root "old.erl", (1%N, 5%N)); (root "gone.erl", (8%N, 5%N))],
     inl ([inside "b" "new.erl"; root "edited.ex"], true)).
Proof. vm_compute. reflexivity. Qed.

(** ** C95: after a build that succeeds the build directory has the native files of the project *)

(** Refuted: a file replaced by an older one is not copied. *)
Theorem C95_copies_are_up_to_date_refuted :
  exists check l b compiles now b', history check l b true /\ build check compiles now l b = (b', true) /\ ~ up_to_date l (in_build b').
Proof.
  set (one := File (root "a.mjs") 1 5). set (two := File (root "a.mjs") 2 3).
  exists true, [two], (Built [(root "a.mjs", (1%N, 10%N))] []), (fun _ _ => true), 20%N, (Built [(root "a.mjs", (1%N, 10%N))] []).
  split; [|split].
  - apply (history_edit true [one] _ true [two]); [|is_proper].
    apply (history_build true [one] (Built [] []) true (fun _ _ => true) 10%N); [apply history_start; is_proper|reflexivity].
  - reflexivity.
  - intros U. destruct (U two (or_introl eq_refl)) as (t & [E|[]]); [|discriminate]. apply native_extension. reflexivity.
Qed.
Print Assumptions C95_copies_are_up_to_date_refuted.

(** Refuted even if the times are in order: of two files of the same path the first is copied before the
    other is reported. When it is then removed its copy is newer than the one that is left. *)
Theorem C95_copies_are_up_to_date_after_conflicts_refuted :
  exists check l b now ok compiles now' b', timely check l b now false ok /\ (now < now')%N
    /\ build check compiles now' l b = (b', true) /\ ~ up_to_date l (in_build b').
Proof.
  set (one := File (root "a.mjs") 1 1). set (two := File (root "a.mjs") 2 1).
  exists true, [two], (Built [(root "a.mjs", (1%N, 10%N))] []), 11%N, false, (fun _ _ => true), 20%N, (Built [(root "a.mjs", (1%N, 10%N))] []).
  split; [|split; [reflexivity|split]].
  - apply (timely_edit true [one; two] _ 10%N); [|is_proper|reflexivity|intros f [<-|[]]; left; right; now left].
    apply (timely_build true [one; two] (Built [] []) 5%N true true false (fun _ _ => true) 10%N); [apply timely_start; is_proper|reflexivity|discriminate|reflexivity].
  - reflexivity.
  - intros U. destruct (U two (or_introl eq_refl)) as (t & [E|[]]); [|discriminate]. apply native_extension. reflexivity.
Qed.
Print Assumptions C95_copies_are_up_to_date_after_conflicts_refuted.

(** Refuted: copies of removed files stay, and the modules in them can still be called. *)
Theorem C95_removed_files_are_removed_refuted :
  exists check l b now compiles now' b', timely check l b now true true /\ (now < now')%N
    /\ build check compiles now' l b = (b', true) /\ ~ exact_copies l (in_build b').
Proof.
  set (one := File (root "a.erl") 1 1).
  exists true, [], (Built [(root "a.erl", (1%N, 10%N))] [(root "a.erl", 1%N)]), 11%N, (fun _ _ => true), 20%N, (Built [(root "a.erl", (1%N, 10%N))] [(root "a.erl", 1%N)]).
  split; [|split; [reflexivity|split]].
  - apply (timely_edit true [one] _ 10%N); [|constructor|reflexivity|intros f []].
    apply (timely_build true [one] (Built [] []) 5%N true true true (fun _ _ => true) 10%N); [apply timely_start; is_proper|reflexivity| |reflexivity].
    intros _. constructor; constructor.
  - reflexivity.
  - intros X. destruct (X (root "a.erl") 1%N) as [Y _]; [apply native_extension; reflexivity|].
    destruct Y as (f & [] & _). exists 10%N. now left.
Qed.
Print Assumptions C95_removed_files_are_removed_refuted.

(** True if every edit is later than all builds before, as times of edits are, and no build met a conflict. *)
Theorem C95_copies_are_up_to_date_partial : forall check l b now ok compiles now' b',
  timely check l b now true ok -> (now < now')%N -> build check compiles now' l b = (b', true) -> up_to_date l (in_build b').
Proof.
  intros check l b now ok compiles now' b' T LT B. pose proof (timely_sound _ _ _ _ _ _ T (or_introl eq_refl)) as S.
  destruct (timely_named _ _ _ _ _ _ T) as [W N]. pose proof (run_spec check now' l (in_build b) W N) as R. unfold build in B.
  destruct (run check now' l (in_build b)) as [d [[ps ex]|e]]; [|discriminate]. injection B as <- _.
  destruct R as (F & C & _). eapply (sound_run check); eauto.
Qed.
Print Assumptions C95_copies_are_up_to_date_partial.

Example C95_example :
  let one := File (root "a.mjs") 1 1 in let two := File (root "a.mjs") 2 11 in
  let b := fst (build true (fun _ _ => true) 10 [one] (Built [] [])) in
  timely true [two] b 11 true true
  /\ build true (fun _ _ => true) 20 [two] b = (Built [(root "a.mjs", (2%N, 20%N))] [], true).
Proof.
  split; [|reflexivity]. apply (timely_edit true [File (root "a.mjs") 1 1] _ 10%N); [|is_proper|reflexivity|intros f [<-|[]]; right; reflexivity].
  apply (timely_build true [File (root "a.mjs") 1 1] (Built [] []) 5%N true true true (fun _ _ => true) 10%N); [apply timely_start; is_proper|reflexivity| |reflexivity].
  intros _. constructor; constructor.
Qed.

(** ** C96: after a build that succeeds the bytecode of every Erlang and Elixir file is that of its content *)

(** Refuted: a file that does not compile is reported by the first build only; the next one succeeds without its bytecode. *)
Theorem C96_all_is_compiled_refuted :
  exists check l b now ok compiles now' b', timely check l b now true ok /\ (now < now')%N
    /\ build check compiles now' l b = (b', true) /\ (forall f, In f l -> compiles (relative f) (content f) = false)
    /\ l <> [] /\ ~ all_compiled l b'.
Proof.
  set (one := File (root "a.erl") 1 1).
  exists true, [one], (Built [(root "a.erl", (1%N, 10%N))] []), 10%N, false, (fun _ _ => false), 20%N, (Built [(root "a.erl", (1%N, 10%N))] []).
  split; [|split; [reflexivity|split; [reflexivity|split; [reflexivity|split; [discriminate|]]]]].
  - apply (timely_build true [one] (Built [] []) 5%N true true true (fun _ _ => false) 10%N); [apply timely_start; is_proper|reflexivity| |reflexivity].
    intros _. constructor; constructor.
  - intros X. destruct (X one (or_introl eq_refl)) as [[] _]. left. apply has_extension_kind. reflexivity.
Qed.
Print Assumptions C96_all_is_compiled_refuted.

(** Refuted, though every file compiles: a conflict is reported after files were copied, and what was copied is not compiled once the
    conflict is gone. *)
Theorem C96_all_is_compiled_after_conflicts_refuted :
  exists check l b now clean ok now' b', timely check l b now clean ok /\ (now < now')%N
    /\ build check (fun _ _ => true) now' l b = (b', true) /\ ~ all_compiled l b'.
Proof.
  set (one := File (root "a.erl") 1 1). set (g := File (root "b.gleam") 2 1). set (m := File (root "b.mjs") 3 1).
  exists true, [one; g], (Built [(root "a.erl", (1%N, 10%N))] []), 11%N, false, false, 20%N, (Built [(root "a.erl", (1%N, 10%N))] []).
  split; [|split; [reflexivity|split; [reflexivity|]]].
  - apply (timely_edit true [one; g; m] _ 10%N); [|is_proper|reflexivity|intros f [<-|[<-|[]]]; left; cbn; auto].
    apply (timely_build true [one; g; m] (Built [] []) 5%N true true false (fun _ _ => true) 10%N); [apply timely_start; is_proper|reflexivity|discriminate|reflexivity].
  - intros X. destruct (X one (or_introl eq_refl)) as [[] _]. left. apply has_extension_kind. reflexivity.
Qed.
Print Assumptions C96_all_is_compiled_after_conflicts_refuted.

(** True if no build failed before, and edits are later than the builds before them. *)
Theorem C96_all_is_compiled_partial : forall check l b now clean compiles now' b',
  timely check l b now clean true -> (now < now')%N -> build check compiles now' l b = (b', true) -> all_compiled l b'.
Proof.
  intros check l b now clean compiles now' b' T LT B. pose proof (timely_sound _ _ _ _ _ _ T (or_intror eq_refl)) as S.
  assert (T' : timely check l b' now' (clean && false) (true && true)) by (eapply timely_build; eauto; discriminate).
  pose proof (timely_in_step _ _ _ _ _ _ T' eq_refl) as I.
  assert (U : up_to_date l (in_build b')).
  { destruct (timely_named _ _ _ _ _ _ T) as [W N]. pose proof (run_spec check now' l (in_build b) W N) as R. unfold build in B.
    destruct (run check now' l (in_build b)) as [d [[ps ex]|e]]; [|discriminate]. injection B as <- _.
    destruct R as (F & C & _). eapply (sound_run check); eauto. }
  intros f If BF. destruct (U f If (beam_native _ BF)) as (t & J). exact (I _ _ _ J BF).
Qed.
Print Assumptions C96_all_is_compiled_partial.

Example C96_example :
  let one := File (root "a.erl") 1 1 in let two := File (root "a.erl") 2 11 in let ex := File (inside "b" "c.ex") 3 1 in
  let b := fst (build true (fun _ _ => true) 10 [one; ex] (Built [] [])) in
  compiled b = [(inside "b" "c.ex", 3%N); (root "a.erl", 1%N)]
  /\ compiled (fst (build true (fun _ _ => true) 20 [two; ex] b)) = [(root "a.erl", 2%N); (inside "b" "c.ex", 3%N)]
  /\ build true (fun _ x => (x =? 1)%N) 20 [two; ex] b
     = (Built [(root "a.erl", (2%N, 20%N)); (inside "b" "c.ex", (3%N, 10%N))] (compiled b), false).
Proof. vm_compute. repeat split. Qed.
