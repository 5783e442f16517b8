(** C85, C86, C87, C88, C91: which packages keep their versions, and what changes of a manifest. *)
From Coq Require Import NArith Arith Bool String List Lia.
From Verif Require Import Text TextProofs Version ResolveSpec ResolveProofs Locked LockedSpec LockedProofs LockedUnlockProofs
  LockedChangesProofs.
From Verif Require Resolve.
Import ListNotations.
Local Open Scope nat_scope.
Local Open Scope list_scope.

(** ** C85: a package keeps the version of the manifest if an unchanged requirement needs it, with
    others between or not, and the project does not begin to ask for it itself. *)
Theorem C85_what_stays_locked : forall stack c m, tables c -> is_map (manifest_requirements m) ->
  match locked stack c (Some m) with
  | Locks l => is_map l
      /\ (forall n v, In (n, v) l <-> exists p, listed m p /\ name p = n /\ at_version p = v
            /\ needed m (unchanged c m) n /\ ((exists r, declared c n r) -> recorded m n))
      /\ (~ exists n, needed m (unchanged c m) n /\ requires m n n)
      /\ ~ exists n, In n (map fst (dependencies c)) /\ In n (map fst (dev_dependencies c))
  | Duplicate n => In n (map fst (dependencies c)) /\ In n (map fst (dev_dependencies c))
  | Overflow => (~ exists n, In n (map fst (dependencies c)) /\ In n (map fst (dev_dependencies c)))
      /\ (length (packages m) < stack -> exists n, needed m (unchanged c m) n /\ requires m n n)
  end.
Proof. exact locked_spec. Qed.
Print Assumptions C85_what_stays_locked.

Theorem C85_nothing_is_locked_without_a_manifest : forall stack c, locked stack c None = Locks [].
Proof. reflexivity. Qed.
Print Assumptions C85_nothing_is_locked_without_a_manifest.

Definition v1 (n : N) : version := Version n 0 0 [] None.
Definition from_hex (n : text) (v : N) (l : list text) : package := Package n (v1 v) l HexSource.
Definition at_least (v : N) : requirement :=
  Hex (match v with 1%N => str ">= 1.0.0" | _ => str ">= 2.0.0" end) (HigherThan (v1 v)).
Definition a := str "a". Definition b := str "b". Definition x := str "x". Definition y := str "y". Definition app := str "app".
(** [a] requires [x], [b] requires [x] and [y]. *)
Definition old : manifest :=
  Manifest [(a, at_least 1); (b, at_least 1)] [from_hex a 1 [x]; from_hex b 1 [x; y]; from_hex x 1 []; from_hex y 1 []].

Example C85_example :
  locked 10 (Config app [(a, at_least 1); (b, at_least 2)] []) (Some old) = Locks [(x, v1 1); (a, v1 1)]
  /\ locked 10 (Config app [(a, at_least 1)] [(y, at_least 1); (b, at_least 1)]) (Some old)
     = Locks [(x, v1 1); (b, v1 1); (a, v1 1)]
  /\ locked 10 (Config app [(a, at_least 1)] [(a, at_least 1)]) (Some old) = Duplicate a
  /\ locked 10 (Config app [(a, at_least 1)] [])
       (Some (Manifest [(a, at_least 1)] [from_hex a 1 [b]; from_hex b 1 [a]])) = Overflow
  /\ tables (Config app [(a, at_least 1)] [(y, at_least 1); (b, at_least 1)]) /\ is_map (manifest_requirements old).
Proof.
  repeat (split; [reflexivity|]). split; [split|]; cbn.
  - constructor; [intros []|constructor].
  - constructor; [intros [F|[]]; discriminate|constructor; [intros []|constructor]].
  - constructor; [intros [F|[]]; discriminate|constructor; [intros []|constructor]].
Qed.

(** ** C86: a package which the project does not require any more, or requires otherwise, is not
    locked, nor one that only such packages require. It is if an unchanged requirement needs it too:
    the new requirement of the project itself is then not met by the locked version, and
    resolution fails before other versions are looked at. *)
Theorem C86_changed_requirements_are_not_locked_refuted :
  exists stack c m l n v, tables c /\ is_map (manifest_requirements m) /\ NoDup (map name (packages m))
    /\ locked stack c (Some m) = Locks l /\ In (n, v) l /\ recorded m n /\ (exists r, declared c n r) /\ ~ unchanged c m n
    /\ Resolve.root_dependencies
         (flat_map (fun '(n, r) => match r with Hex s a => [(n, (s, a))] | _ => [] end) (dependencies c)) l
       = Resolve.Incompatible n.
Proof.
  exists 10, (Config app [(a, at_least 1); (x, at_least 2)] []),
    (Manifest [(a, at_least 1); (x, at_least 1)] [from_hex a 1 [x]; from_hex x 1 []]),
    [(x, v1 1); (a, v1 1)], x, (v1 1).
  assert (D : NoDup [a; x]) by (constructor; [intros [F|[]]; discriminate|constructor; [auto|constructor]]).
  split; [split; cbn; auto; constructor|]. split; [exact D|]. split; [exact D|]. split; [reflexivity|].
  split; [cbn; tauto|]. split; [exists (at_least 1); cbn; tauto|].
  split; [exists (at_least 2); left; cbn; tauto|]. split; [|reflexivity].
  intros (r & r' & [I|[]] & J & S). cbn in I, J.
  destruct I as [I|[I|[]]]; [discriminate|]. destruct J as [J|[J|[]]]; [discriminate|].
  injection I as <-. injection J as <-. inversion S.
Qed.
Print Assumptions C86_changed_requirements_are_not_locked_refuted.

(** What is missing: packages that an unchanged requirement needs. *)
Theorem C86_changed_requirements_are_not_locked_partial : forall stack c m l n,
  tables c -> is_map (manifest_requirements m) -> locked stack c (Some m) = Locks l ->
  ~ unchanged c m n -> (forall k, requires m k n -> ~ unchanged c m k) -> ~ In n (map fst l).
Proof.
  intros stack c m l n T M E N R I. pose proof (locked_spec stack c m T M) as S. rewrite E in S. destruct S as (_ & S & _).
  apply key_in in I as (v & I). apply S in I as (_ & _ & _ & _ & D & _).
  assert (X : unchanged c m n \/ exists k, requires m k n /\ unchanged c m k).
  { clear - D. induction D as [n U|p n D IH L I]; [tauto|]. right. destruct IH as [U|(k & K & U)].
    - exists (name p). split; auto. now constructor.
    - exists k. split; auto. eapply requires_more; [exact K|]. now constructor. }
  destruct X as [U|(k & K & U)]; [tauto|]. now apply (R k).
Qed.
Print Assumptions C86_changed_requirements_are_not_locked_partial.

(** [b] is removed, and [y] with it. *)
Example C86_example :
  let c := Config app [(a, at_least 1)] [] in
  locked 10 c (Some old) = Locks [(x, v1 1); (a, v1 1)]
  /\ ~ unchanged c old y /\ (forall k, requires old k y -> ~ unchanged c old k).
Proof.
  cbn zeta. split; [reflexivity|].
  assert (U : forall n, unchanged (Config app [(a, at_least 1)] []) old n -> n = a).
  { intros n (r & r' & [[I|[]]|[]] & _). now injection I as <- _. }
  split; [intros H; apply U in H; discriminate|].
  assert (L : forall p, listed old p -> In p (packages old)) by exact (listed_in old).
  assert (R : forall k n, requires old k n -> n = x \/ n = y /\ k = b).
  { intros k n H. induction H as [p n J I|k n q H1 IH1 H2 IH2].
    - apply L in J. cbn in J. destruct J as [<-|[<-|[<-|[<-|[]]]]]; cbn in I; destruct I as [<-|[<-|[]]] || destruct I as [<-|[]] || destruct I; auto.
    - destruct IH2 as [->|[-> ->]]; auto. destruct IH1 as [F|[F _]]; discriminate. }
  intros k H V. apply U in V. subst. apply R in H as [F|[_ F]]; discriminate.
Qed.

(** ** C87: packages that are unlocked take with them those that only they required. *)
Theorem C87_what_is_unlocked : forall locks asked m, NoDup (map name (packages m)) ->
  exists l, unlock_packages locks asked (Some m) = Some l
  /\ forall n v, In (n, v) l <-> In (n, v) locks /\ ~ unlocked m locks asked n.
Proof.
  intros locks asked m N. destruct (unlock_packages_spec m locks asked) as (l & E & A & B & C). exists l. split; auto.
  intros n v. split; [intros I; split; [auto|now apply (C N n v)]|intros [I U]; destruct (B n v I); tauto].
Qed.
Print Assumptions C87_what_is_unlocked.

Theorem C87_without_a_manifest : forall locks asked, exists l, unlock_packages locks asked None = Some l
  /\ forall n v, In (n, v) l <-> In (n, v) locks /\ ~ In n asked.
Proof. intros locks asked. eexists. split; [reflexivity|]. intros n v. apply unlock_without. Qed.
Print Assumptions C87_without_a_manifest.

Example C87_example :
  let locks := [(a, v1 1); (b, v1 1); (x, v1 1); (y, v1 1)] in
  unlock_packages locks [b] (Some old) = Some [(a, v1 1); (x, v1 1)]
  /\ unlock_packages locks [a] (Some old) = Some [(b, v1 1); (x, v1 1); (y, v1 1)]
  /\ unlock_packages locks [a; b] (Some old) = Some []
  /\ unlock_packages locks [b] None = Some [(a, v1 1); (x, v1 1); (y, v1 1)]
  /\ unlocked old locks [b] y.
Proof.
  cbn zeta. repeat (split; [reflexivity|]). apply unlocked_orphan with (from_hex b 1 [x; y]); cbn; try tauto.
  - apply unlocked_asked; cbn; tauto.
  - intros (r & [F|[F|[]]]); discriminate.
  - intros q [<-|[<-|[<-|[<-|[]]]]]; cbn; intros I _.
    + destruct I as [F|[]]; discriminate.
    + apply unlocked_asked; cbn; tauto.
    + destruct I.
    + destruct I.
Qed.

(** ** C88: the changes reported between two manifests are those between their packages; none is
    reported exactly if the packages are the same but for what they require. *)
Theorem C88_reported_changes : forall old new, NoDup (map name (packages old)) -> NoDup (map name (packages new)) ->
  let c := between_manifests old new in
  (forall n v, In (n, v) (added c) <-> is_added old new n v)
  /\ (forall n v w, In (n, v, w) (changed c) <-> is_changed old new n v w)
  /\ (forall n x y, In (n, x, y) (changed_git c) <-> is_moved old new n x y)
  /\ (forall n, In n (removed c) <-> is_removed old new n).
Proof. exact between_spec. Qed.
Print Assumptions C88_reported_changes.

Theorem C88_no_change_is_reported : forall old new, NoDup (map name (packages old)) -> NoDup (map name (packages new)) ->
  (any_package_changes (between_manifests old new) = false <-> same_packages old new).
Proof. exact any_changes_spec. Qed.
Print Assumptions C88_no_change_is_reported.

(** The requirements of a project and of its manifest are the same if every one has its like. *)
Theorem C88_same_requirements : forall canonical a b, (forall p, canonical p <> None) -> is_map a -> is_map b ->
  is_same_requirements canonical a b <> None
  /\ (is_same_requirements canonical a b = Some true <->
      (forall n r, In (n, r) a -> exists r', In (n, r') b /\ same_place canonical r r')
      /\ (forall n r', In (n, r') b -> exists r, In (n, r) a /\ same_place canonical r r')).
Proof. exact is_same_requirements_spec. Qed.
Print Assumptions C88_same_requirements.

Definition at_commit (n c : text) : package := Package n (v1 1) [] (GitSource (str "https://example.com") c None).
Example C88_example :
  between_manifests
    (Manifest [] [from_hex a 1 []; from_hex b 1 []; from_hex x 1 []; at_commit y (str "c1")])
    (Manifest [] [from_hex a 2 []; at_commit x (str "c1"); at_commit y (str "c2"); from_hex app 1 []])
  = Changes [(x, v1 1); (app, v1 1)] [(a, v1 1, v1 2)] [(y, str "c1", str "c2")] [x; b]
  /\ is_same_requirements (fun p => Some (match p with 46%N :: 47%N :: p => p | _ => p end))
       [(a, Path (str "./a")); (b, at_least 1)] [(b, at_least 1); (a, Path (str "a"))] = Some true
  /\ is_same_requirements Some [(a, at_least 1)] [(a, at_least 2)] = Some false.
Proof. repeat split. Qed.

(** ** C91: removing requirements leaves of a manifest the requirements that are still declared, and the
    packages that unchanged ones of them need. *)
Theorem C91_what_remains_after_removing : forall stack c m, tables c -> is_map (manifest_requirements m) ->
  match remove_extra_requirements stack c m with
  | inl (Some m') =>
      (forall n r, In (n, r) (manifest_requirements m') <-> In (n, r) (manifest_requirements m) /\ exists s, declared c n s)
      /\ (forall p, In p (packages m') <-> In p (packages m) /\ needed m (unchanged c m) (name p)
            /\ ((exists r, declared c (name p) r) -> recorded m (name p)))
      /\ exists keep, packages m' = filter keep (packages m)
  | inl None => length (packages m) < stack -> exists n, needed m (unchanged c m) n /\ requires m n n
  | inr n => In n (map fst (dependencies c)) /\ In n (map fst (dev_dependencies c))
  end.
Proof. exact remove_extra_spec. Qed.
Print Assumptions C91_what_remains_after_removing.

(** [b] is removed: [y] goes with it, [x] is still needed by [a]; removing [x] as a requirement of the
    project does not drop it. *)
Example C91_example :
  remove_extra_requirements 10 (Config app [(a, at_least 1)] []) old
    = inl (Some (Manifest [(a, at_least 1)] [from_hex a 1 [x]; from_hex x 1 []]))
  /\ remove_extra_requirements 10 (Config app [(a, at_least 1)] [])
       (Manifest [(a, at_least 1); (x, at_least 1); (y, at_least 1)] [from_hex a 1 [x]; from_hex x 1 []; from_hex y 1 []])
    = inl (Some (Manifest [(a, at_least 1)] [from_hex a 1 [x]; from_hex x 1 []])).
Proof. split; reflexivity. Qed.
