(** Model of the tables the command line prints: /repo/compiler-cli/src/text_layout.rs, and what /repo/compiler-cli/src/dependencies.rs prints
    with them ([gleam deps list], [gleam deps outdated], and the note about new major versions).

    Text is a list of code points; [len] is the number of bytes.  [None] is a panic: subtraction of [usize] below zero. *)
From Coq Require Import String Arith NArith List Bool.
From Verif Require Import Text Version ManifestText.
Import ListNotations.
Local Open Scope list_scope.
Local Open Scope nat_scope.
Local Notation "'let?' x ':=' a 'in' b" := (match a with Some x => b | None => None end) (at level 200, x name, a at level 100, b at level 200).

(** [str::len]: the bytes of UTF-8. *)
Definition bytes_of (c : N) : nat := if (c <? 128)%N then 1 else if (c <? 2048)%N then 2 else if (c <? 65536)%N then 3 else 4.
Definition len (s : text) : nat := list_sum (map bytes_of s).

(** text_layout.rs:31-38, a row: cells beyond the columns are ignored. *)
Fixpoint widen (widths : list nat) (row : list text) : list nat :=
  match widths, row with
  | width :: widths, cell :: row => Nat.max width (len cell) :: widen widths row
  | _, _ => widths
  end.
(** text_layout.rs:28-38 *)
Definition column_widths (headers : list text) (data : list (list text)) : list nat :=
  fold_left widen data (map len headers).

(** text_layout.rs:47-50, 62-65, 77-80: [width - cell.len()] spaces. *)
Definition padding (width used : nat) : option text :=
  if width <? used then None else Some (repeat 32%N (width - used)).
(** text_layout.rs:40-52, 55-67, 70-82: the three loops differ in what is [shown] of a cell.  [columns] is [headers.len()]. *)
Fixpoint line (shown : text -> text) (columns index : nat) (cells : list (text * nat)) : option text :=
  match cells with
  | [] => Some []
  | (cell, width) :: cells =>
      let? pad := if index <? columns - 1 then padding width (len cell) else Some [] in
      let? rest := line shown columns (S index) cells in
      Some ((if 0 <? index then str "  " else []) ++ shown cell ++ pad ++ rest)
  end.
(** text_layout.rs:61: hyphens under the headers. *)
Definition hyphens (header : text) : text := repeat 45%N (len header).
(** text_layout.rs:69-84 *)
Fixpoint body (columns : nat) (widths : list nat) (data : list (list text)) : option text :=
  match data with
  | [] => Some []
  | row :: data =>
      let? l := line (fun cell => cell) columns 0 (combine row widths) in
      let? rest := body columns widths data in
      Some (l ++ [10%N] ++ rest)
  end.
(** text_layout.rs:20-87 [space_table] *)
Definition space_table (headers : list text) (data : list (list text)) : option text :=
  let widths := column_widths headers data in
  let columns := length headers in
  let? head := line (fun header => header) columns 0 (combine headers widths) in
  let? under := line hyphens columns 0 (combine headers widths) in
  let? rows := body columns widths data in
  Some (head ++ [10%N] ++ under ++ [10%N] ++ rows).

(** dependencies.rs:118-130 [list_manifest_packages]: what is written of the packages of the manifest. *)
Definition list_manifest_packages (packages : list (text * version)) : option text :=
  space_table [str "Package"; str "Version"] (map (fun p => [fst p; show (snd p)]) packages).

(** dependency.rs:74 [PackageVersionDiffs]: a hash map, here its entries in the order they are visited. *)
Definition diffs := list (text * (version * version)).
(** dependencies.rs:439-447 [format_versions_and_extract_longest_parts].  Rows are compared cell by cell; the names are the keys of a map, so
    the comparison never gets past them. *)
Definition format_versions (versions : diffs) : list (list text) :=
  sorted_by (fun row => hd [] row) (map (fun p => [fst p; show (fst (snd p)); show (snd (snd p))]) versions).
Definition diff_headers : list text := [str "Package"; str "Current"; str "Latest"].
(** dependencies.rs:449-456 [pretty_print_major_versions_available] *)
Definition pretty_print_major_versions_available (versions : diffs) : option text :=
  let? table := space_table diff_headers (format_versions versions) in
  Some ([10%N] ++ str "The following dependencies have new major versions available:" ++ [10%N; 10%N] ++ table).
(** dependencies.rs:458-461 [pretty_print_version_updates] *)
Definition pretty_print_version_updates (versions : diffs) : option text :=
  space_table diff_headers (format_versions versions).
(** dependencies.rs:463-478 [pretty_print_outdated_versions] *)
Definition pretty_print_outdated_versions (total_packages : N) (versions : diffs) : option text :=
  let summary := decimal (N.of_nat (length versions)) ++ str " of " ++ decimal total_packages ++ str " packages have newer versions available." in
  match versions with
  | [] => Some (summary ++ [10%N])
  | _ => let? table := pretty_print_version_updates versions in Some (summary ++ [10%N; 10%N] ++ table)
  end.
