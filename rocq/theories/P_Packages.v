(** C40, C51: the packages compiled by a build, their order and their tools. *)
From Coq Require Import NArith Arith Bool List Permutation Lia String.
From Verif Require Import Text TextProofs DepTree DepTreeSpec Packages PackagesSpec PackagesProofs.
Import ListNotations.
Local Open Scope nat_scope.
Local Open Scope list_scope.

(** C40: a build in production mode gives its tools nothing but the packages needed by the
    dependencies, and when it succeeds all of them. *)
Theorem C40_production_builds_compile_what_is_needed : forall builds dependencies manifest tr r,
  compile builds Prod dependencies manifest = (tr, r) ->
  (forall n t, In (n, t) tr ->
     needed dependencies manifest n /\ exists p, listed manifest p /\ name p = n)
  /\ (r = None -> forall p, listed manifest p -> needed dependencies manifest (name p) ->
        exists t, In (name p, t) tr).
Proof.
  intros builds deps manifest tr r H.
  destruct (compile_spec builds Prod deps manifest) as (tr' & r' & E & O). rewrite H in E. injection E as <- <-.
  destruct O as [(order & M & _ & _ & B)|(l & _ & -> & ->)].
  - assert (A : forall n t, In (n, t) tr -> exists p, In p order /\ name p = n).
    { clear H M. intros n t. induction B as [|p ps tr tr' r T B IH|p ps T|p ps tr T T']; cbn; try tauto.
      - rewrite in_app_iff. intros [I|I].
        + exists p. split; auto. clear IH B. remember true as ok.
          induction T; cbn in I; try tauto; try discriminate.
          * destruct I as [[= <- _]|[]]. reflexivity.
          * destruct I as [[= <- _]|I]; auto.
        + destruct (IH I) as (q & Q & E). eauto.
      - intros I. exists p. split; auto. clear T. induction T'; cbn in I; try tauto.
        + destruct I as [[= <- _]|[]]. reflexivity.
        + destruct I as [[= <- _]|I]; auto. }
    split.
    + intros n t I. destruct (A n t I) as (p & Ip & <-). apply M in Ip as [L N]. eauto.
    + intros -> p L N. assert (Ip : In p order) by (apply M; split; auto). clear H M A L N.
      remember None as r. induction B as [|q ps tr tr' r T B IH|q ps T|q ps tr T T']; try discriminate; [destruct Ip|].
      destruct Ip as [->|Ip].
      * assert (S : exists t, In (name p, t) tr).
        { clear IH B Heqr. remember true as ok. induction T; try discriminate.
          - eexists. now left.
          - destruct IHT as (u & U); auto. exists u. now right. }
        destruct S as (t & I). exists t. apply in_app_iff. auto.
      * destruct (IH Heqr Ip) as (t & I). exists t. apply in_app_iff. auto.
  - split; [intros n t []|discriminate].
Qed.
Print Assumptions C40_production_builds_compile_what_is_needed.

(** The packages kept, whatever happens to them afterwards. *)
Theorem C40_packages_kept : forall dependencies manifest,
  exists kept, retain_only_production_packages dependencies (new manifest) = Some kept
    /\ NoDup (map name kept)
    /\ forall p, In p kept <-> listed manifest p /\ needed dependencies manifest (name p).
Proof.
  intros deps manifest. destruct (new_spec manifest) as [ND I].
  destruct (retain_spec (new manifest) deps ND) as (kept & -> & keep & -> & K).
  eexists. split; [reflexivity|]. split; [now apply filter_names|].
  intros p. rewrite filter_In, I, K, need_needed. tauto.
Qed.
Print Assumptions C40_packages_kept.

(** C51: a build goes through the wanted packages, each once and after all it requires, trying the
    tools of each in turn, to the first that cannot be built; or the packages require each other in
    a loop, and nothing is built. *)
Theorem C51_packages_are_built_in_order : forall builds m dependencies manifest tr r,
  compile builds m dependencies manifest = (tr, r) ->
  (exists order,
     (forall p, In p order <-> wanted m dependencies manifest p) /\ NoDup (map name order)
     /\ (forall p q, wanted m dependencies manifest p -> wanted m dependencies manifest q -> requires p q ->
           comes_before q p order)
     /\ built builds order tr r)
  \/ (exists l, requirement_loop (wanted m dependencies manifest) l /\ tr = [] /\ r = Some (PackageCycle l)).
Proof.
  intros builds m deps manifest tr r H.
  destruct (compile_spec builds m deps manifest) as (tr' & r' & E & O). rewrite H in E. now injection E as <- <-.
Qed.
Print Assumptions C51_packages_are_built_in_order.

Lemma pairs_go_up {A} (R : A -> nat) : forall l x, (forall a p q b, (x :: l) = a ++ p :: q :: b -> R p < R q) ->
  forall y, In y l -> R x < R y.
Proof.
  induction l as [|z l IH]; intros x H y; [intros []|].
  assert (S : R x < R z) by (apply (H [] x z l); reflexivity).
  intros [<-|I]; auto. transitivity (R z); auto. apply IH; auto.
  intros a p q b E. apply (H (x :: a) p q b). cbn. congruence.
Qed.
Fixpoint position (n : text) (l : list package) : nat :=
  match l with [] => 0 | p :: l => if text_eqb (name p) n then 0 else S (position n l) end.
Lemma position_app a p b : ~ In (name p) (map name a) -> position (name p) (a ++ p :: b) = List.length a.
Proof.
  induction a as [|x a IH]; cbn; intros N; [now rewrite text_eqb_refl|].
  destruct (text_eqb (name x) (name p)) eqn:E; [apply text_eqb_eq in E; tauto|]. rewrite IH; tauto.
Qed.
Lemma position_before p q l : NoDup (map name l) -> comes_before p q l -> position (name p) l < position (name q) l.
Proof.
  intros ND (a & b & c & ->). rewrite position_app.
  - replace (a ++ p :: b ++ q :: c) with ((a ++ p :: b) ++ q :: c) in * by (rewrite <- app_assoc; reflexivity).
    rewrite position_app, app_length; [cbn; lia|]. rewrite map_app in ND. cbn in ND.
    apply NoDup_remove_2 in ND. rewrite in_app_iff in ND. tauto.
  - rewrite map_app in ND. apply NoDup_remove_2 in ND. rewrite in_app_iff in ND. tauto.
Qed.
(** A loop is reported exactly when there is one. *)
Theorem C51_loops_are_found : forall builds m dependencies manifest,
  (exists l, compile builds m dependencies manifest = ([], Some (PackageCycle l)))
  <-> exists l, requirement_loop (wanted m dependencies manifest) l.
Proof.
  intros builds m deps manifest.
  destruct (compile_spec builds m deps manifest) as (tr & r & E & O). rewrite E. split.
  - intros [l [= -> ->]]. destruct O as [(order & _ & _ & _ & B)|(l' & L & _)]; [|eauto].
    exfalso. revert B. generalize (@nil (text * tool)). intros tr B.
    remember (Some (PackageCycle l)) as r. induction B; auto; discriminate.
  - intros [l L]. destruct O as [(order & M & N & B & _)|(l' & L' & -> & ->)]; [exfalso|eauto].
    destruct L as (first & rest & -> & _ & W & P).
    assert (C : position (name first) order < position (name first) order); [|lia].
    apply (pairs_go_up (fun p => position (name p) order) (rest ++ [first]) first).
    + intros a p q b Eq. apply position_before; auto. apply B; [| |now apply (P a p q b)].
      all: assert (I : forall z, In z ((first :: rest) ++ [first]) -> wanted m deps manifest z)
        by (intros z Z; apply in_app_iff in Z as [Z|[<-|[]]]; [now apply W|apply W; now left]).
      all: apply I; cbn [app]; rewrite Eq; apply in_app_iff; right; cbn; auto.
    + apply in_app_iff. right. now left.
Qed.
Print Assumptions C51_loops_are_found.

(** A build succeeds exactly when there is no loop and every wanted package has a tool that builds it. *)
Theorem C51_builds_succeed_iff : forall builds m dependencies manifest,
  snd (compile builds m dependencies manifest) = None
  <-> (~ exists l, requirement_loop (wanted m dependencies manifest) l)
      /\ forall p, wanted m dependencies manifest p -> exists t, In t (tools p) /\ builds (name p) t = true.
Proof.
  intros builds m deps manifest. rewrite <- (C51_loops_are_found builds).
  destruct (compile_spec builds m deps manifest) as (tr & r & E & O). rewrite E. cbn [snd].
  assert (T1 : forall n ts tr, tried builds n ts tr true -> exists t, In t ts /\ builds n t = true).
  { intros n ts tr0 T. remember true as ok. induction T; try discriminate; [eexists; split; [now left|auto]|].
    destruct IHT as (u & U & V); auto. exists u. split; [now right|auto]. }
  assert (T2 : forall n ts tr, tried builds n ts tr false -> forall t, In t ts -> builds n t = false).
  { intros n ts tr0 T. remember false as ok. induction T; try discriminate; [intros ? []|].
    subst ok. intros u [<-|U]; auto. }
  destruct O as [(order & M & _ & _ & B)|(l & L & -> & ->)].
  - split.
    + intros ->. split; [intros [l [=]]|]. intros p Ip. apply M in Ip. clear E M.
      remember None as r. induction B as [|q ps tr tr' r T B IH|q ps T|q ps tr T T']; try discriminate; [destruct Ip|].
      destruct Ip as [->|Ip]; eauto.
    + intros [_ H]. assert (H' : forall p, In p order -> exists t, In t (tools p) /\ builds (name p) t = true).
      { intros p Ip. now apply H, M. }
      clear E M H. induction B as [|q ps tr tr' r T B IH|q ps T|q ps tr T T']; auto.
      * apply IH. intros p Ip. apply H'. now right.
      * destruct (H' q) as (t & I & _); [now left|]. rewrite T in I. destruct I.
      * destruct (H' q) as (t & I & J); [now left|]. rewrite (T2 _ _ _ T' _ I) in J. discriminate.
  - split; [discriminate|]. intros [N _]. exfalso. apply N. eauto.
Qed.
Print Assumptions C51_builds_succeed_iff.

(** Neither the order of the manifest nor that of the dependencies matters. *)
Theorem C51_builds_are_deterministic : forall builds m dependencies dependencies' manifest manifest',
  (forall n, In n dependencies <-> In n dependencies') -> NoDup (map name manifest) -> Permutation manifest manifest' ->
  compile builds m dependencies manifest = compile builds m dependencies' manifest'.
Proof.
  intros builds m deps deps' manifest manifest' D N P. apply compile_same; auto.
  assert (L : forall l p, NoDup (map name l) -> (listed l p <-> In p l)).
  { intros l p ND. split.
    - intros (b & a & -> & _). apply in_app_iff. right. now left.
    - intros I. apply in_split in I as (b & a & ->). exists b, a. split; auto.
      intros q Q En. rewrite map_app in ND. apply NoDup_remove_2 in ND. apply ND, in_app_iff. right.
      rewrite <- En. now apply in_map. }
  intros p. rewrite !L; auto.
  - split; [now apply Permutation_in|now apply Permutation_in, Permutation_sym].
  - eapply Permutation_NoDup; [now apply Permutation_map, P|exact N].
Qed.
Print Assumptions C51_builds_are_deterministic.

Local Open Scope string_scope.
Definition pkg (n : string) (rs ts : list string) : package := Package (str n) (map str rs) (map str ts).
Definition manifest_example : list package :=
  [pkg "wisp" ["mist"; "jason"] ["gleam"]; pkg "mist" ["wisp_core"] ["rebar3"; "gleam"]; pkg "wisp_core" ["missing"] ["mix"; "rebar"];
   pkg "jason" [] ["mix"]; pkg "gleeunit" ["gleeunit"] ["make"]].
(** A test framework that requires itself and has no known tool does not disturb production. *)
Example C40_example :
  compile (fun n t => match t with Mix => text_eqb n (str "jason") | _ => true end) Prod [str "wisp"] manifest_example
  = ([(str "jason", Mix); (str "wisp_core", Mix); (str "wisp_core", Rebar3); (str "mist", Gleam); (str "wisp", Gleam)], None)
  /\ compile (fun _ _ => true) Dev [str "wisp"] manifest_example = ([], Some (PackageCycle [str "gleeunit"])).
Proof. vm_compute. split; reflexivity. Qed.
Example C40_example_needed : needed [str "wisp"] manifest_example (str "wisp_core").
Proof.
  apply needed_requirement with (pkg "mist" ["wisp_core"] ["rebar3"; "gleam"]).
  - apply needed_requirement with (pkg "wisp" ["mist"; "jason"] ["gleam"]).
    + constructor. now left.
    + exists [], (tl manifest_example). split; [reflexivity|]. cbn.
      intros q [<-|[<-|[<-|[<-|[]]]]]; intros [=].
    + now left.
  - exists [pkg "wisp" ["mist"; "jason"] ["gleam"]], (tl (tl manifest_example)). split; [reflexivity|]. cbn.
    intros q [<-|[<-|[<-|[]]]]; intros [=].
  - now left.
Qed.
(** Two packages that need each other, in production. *)
Example C51_example :
  compile (fun _ _ => true) Prod [str "a"] [pkg "a" ["b"] ["gleam"]; pkg "b" ["a"] ["gleam"]]
  = ([], Some (PackageCycle (map str ["b"; "a"])))
  /\ compile (fun _ t => match t with Rebar3 => false | _ => true end) Dev []
       [pkg "b" ["a"] ["rebar3"]; pkg "c" [] ["gleam"]; pkg "a" [] ["gleam"]; pkg "d" ["b"] []]
     = ([(str "a", Gleam); (str "b", Rebar3)], Some (Failed (str "b"))).
Proof. vm_compute. split; reflexivity. Qed.
