(** The tables the command line prints (C113, C114). *)
From Coq Require Import String Arith NArith List Bool Permutation Sorting.Sorted Lia.
From Verif Require Import Text Version VersionSpec TextTable TextTableSpec TextTableProofs.
Import ListNotations.
Local Open Scope list_scope.
Local Open Scope nat_scope.

(** ** C113: tables *)
Theorem C113_aligned headers rows : headers <> [] -> Forall printable headers ->
  Forall (fun row => length row = length headers /\ Forall printable row) rows ->
  exists starts ls, space_table headers rows = Some (lines ls)
    /\ Forall2 (laid_out 0 starts) (headers :: map underline headers :: rows) ls
    /\ close starts (headers :: rows).
Proof.
  intros N P W. destruct (table_lines headers rows N P W) as (st & ls & E & O & C & _). exists st, ls. repeat split; assumption || apply (C _ _ _ H H0).
Qed.
Print Assumptions C113_aligned.

Theorem C113_reads_back headers rows : headers <> [] -> Forall one_word headers ->
  Forall (fun row => length row = length headers /\ Forall one_word row) rows ->
  exists s, space_table headers rows = Some s /\ read s = Some (headers, rows).
Proof. apply table_reads. Qed.
Print Assumptions C113_reads_back.

(** Rows of any length, in any language. *)
Theorem C113_never_panics headers rows : exists s, space_table headers rows = Some s.
Proof. apply space_table_some. Qed.
Print Assumptions C113_never_panics.

Local Definition headers := [str "Package"; str "Current"; str "Latest"].
Local Definition rows := [[str "gleam_stdlib"; str "0.60.0"; str "1.0.0"]; [str "lustre"; str "5.0.0-rc.1"; str "5.3.5"]].
Example a_table :
  space_table headers rows = Some (lines
    [str "Package       Current     Latest"; str "-------       -------     ------"; str "gleam_stdlib  0.60.0      1.0.0";
     str "lustre        5.0.0-rc.1  5.3.5"])
  /\ laid_out 0 [0; 14; 26] [str "lustre"; str "5.0.0-rc.1"; str "5.3.5"] (str "lustre        5.0.0-rc.1  5.3.5")
  /\ read (lines [str "Package       Current     Latest"; str "-------       -------     ------"; str "gleam_stdlib  0.60.0      1.0.0"])
     = Some (headers, [[str "gleam_stdlib"; str "0.60.0"; str "1.0.0"]]).
Proof.
  split; [vm_compute; reflexivity|]. split; [|vm_compute; reflexivity].
  apply (a_cell 0 14 [26] (str "lustre") _ (repeat 32%N 8) (str "5.0.0-rc.1  5.3.5")); [reflexivity|repeat constructor|].
  apply (a_cell 14 26 [] (str "5.0.0-rc.1") _ (repeat 32%N 2) (str "5.3.5")); [reflexivity|repeat constructor|]. constructor.
Qed.
Example a_ragged_table : space_table [str "a"; str "b"] [[str "wibble"]; [str "x"; str "y"; str "z"]; []]
  = Some (lines [str "a       b"; str "-       -"; str "wibble"; str "x       y"; []]).
Proof. vm_compute. reflexivity. Qed.

(** ** C114: reports *)
Theorem C114_packages_of_the_manifest packages : Forall (fun p => one_word (fst p) /\ legal_version (snd p)) packages ->
  exists s, list_manifest_packages packages = Some s
    /\ read s = Some ([str "Package"; str "Version"], map (fun p => [fst p; show (snd p)]) packages).
Proof.
  intro G. apply table_reads; [discriminate|repeat constructor; try discriminate|]. apply Forall_map. eapply Forall_impl; [|exact G].
  intros (n & v) (A & B). split; [reflexivity|]. constructor; [exact A|]. constructor; [apply show_word, B|constructor].
Qed.
Print Assumptions C114_packages_of_the_manifest.

Lemma updates_listed d : Forall an_update d -> NoDup (map fst d) -> exists s, pretty_print_version_updates d = Some s /\ lists s d.
Proof.
  intros G N. destruct (updates_read d G) as (s & E & R). exists s. split; [exact E|]. exists (format_versions d).
  split; [exact R|]. split; [apply format_by_name, N|]. apply Permutation_sym, format_perm.
Qed.
Theorem C114_outdated total d : Forall an_update d -> NoDup (map fst d) -> exists table,
  pretty_print_outdated_versions total d
  = Some (decimal (N.of_nat (length d)) ++ str " of " ++ decimal total ++ str " packages have newer versions available." ++ [10%N] ++ table)
  /\ (d = [] -> table = []) /\ (d <> [] -> exists t, table = [10%N] ++ t /\ lists t d).
Proof.
  intros G N. destruct (updates_listed d G N) as (s & E & L). unfold pretty_print_outdated_versions. destruct d as [|a d].
  - exists []. split; [rewrite <- !app_assoc; reflexivity|]. split; [reflexivity|congruence].
  - rewrite E. exists ([10%N] ++ s). split; [rewrite <- !app_assoc; reflexivity|]. split; [discriminate|]. intros _. exists s. auto.
Qed.
Print Assumptions C114_outdated.

Theorem C114_major_versions d : Forall an_update d -> NoDup (map fst d) -> exists t,
  pretty_print_major_versions_available d
  = Some ([10%N] ++ str "The following dependencies have new major versions available:" ++ [10%N; 10%N] ++ t) /\ lists t d.
Proof.
  intros G N. destruct (updates_listed d G N) as (s & E & L). exists s. split; [|exact L].
  unfold pretty_print_major_versions_available. unfold pretty_print_version_updates in E. rewrite E. reflexivity.
Qed.
Print Assumptions C114_major_versions.

Theorem C114_order_of_tables total d d' : NoDup (map fst d) -> Permutation d d' ->
  pretty_print_outdated_versions total d = pretty_print_outdated_versions total d'
  /\ pretty_print_major_versions_available d = pretty_print_major_versions_available d'.
Proof.
  intros N P. unfold pretty_print_outdated_versions, pretty_print_major_versions_available, pretty_print_version_updates.
  rewrite (format_same d d' N P), (Permutation_length P). split; [|reflexivity].
  destruct d, d'; try reflexivity; apply Permutation_length in P; discriminate P.
Qed.
Print Assumptions C114_order_of_tables.

Local Definition v (a b c : N) := Version a b c [] None.
Local Definition some_updates := [(str "lustre", (v 5 0 0, v 5 3 5)); (str "gleam_stdlib", (v 0 60 0, v 1 0 0))].
Example some_updates_reported :
  Forall an_update some_updates /\ NoDup (map fst some_updates)
  /\ pretty_print_outdated_versions 7 some_updates
     = Some (lines [str "2 of 7 packages have newer versions available."; []; str "Package       Current  Latest"; str "-------       -------  ------";
                    str "gleam_stdlib  0.60.0   1.0.0"; str "lustre        5.0.0    5.3.5"]).
Proof.
  split; [|split; [|vm_compute; reflexivity]].
  - repeat constructor; try discriminate; cbn; lia.
  - cbn. repeat constructor; cbn; intuition discriminate.
Qed.
