(** Which packages a build compiles, and with what: compiler-core/src/build/project_compiler.rs. *)
From Coq Require Import NArith Arith Bool List String.
From Verif Require Import Text DepTree.
Import ListNotations.
Local Open Scope list_scope.

(** [ManifestPackage], manifest.rs: the fields used here. *)
Record package := Package { name : text; requirements : list text; build_tools : list text }.

(** [packages], a [HashMap], as a list without repeated names. *)
Fixpoint get (n : text) (ps : list package) : option package :=
  match ps with
  | [] => None
  | p :: ps => if text_eqb (name p) n then Some p else get n ps
  end.
(** [ProjectCompiler::new] 121-140: [collect] into a map, the last package of a name stays. *)
Definition insert (ps : list package) (p : package) : list package :=
  p :: filter (fun q => negb (text_eqb (name q) (name p))) ps.
Definition new (ps : list package) : list package := fold_left insert ps [].

(** [retain_only_production_packages] 175-187.  The order of [dependencies.keys()] is that of a
    hash map, so it is given.  [queue] is the vector from its end. *)
Fixpoint production (fuel : nat) (packages : list package) (found queue : list text) : option (list text) :=
  match fuel with
  | O => None
  | S fuel =>
      match queue with
      | [] => Some found
      | n :: queue =>
          if existsb (text_eqb n) found then production fuel packages found queue
          else
            match get n packages with
            | Some p => production fuel packages (n :: found) (rev (requirements p) ++ queue)
            | None => production fuel packages (n :: found) queue
            end
      end
  end.
Definition production_fuel (packages : list package) (dependencies : list text) : nat :=
  S (List.length dependencies + list_sum (map (fun p => List.length (requirements p)) packages)).
Definition retain_only_production_packages (dependencies : list text) (packages : list package) : option (list package) :=
  match production (production_fuel packages dependencies) packages [] (rev dependencies) with
  | Some found => Some (filter (fun p => existsb (text_eqb (name p)) found) packages)
  | None => None
  end.

(** [order_packages] 667-680. *)
Fixpoint insert_sorted (p : package) (ps : list package) : list package :=
  match ps with
  | [] => [p]
  | q :: ps => match text_cmp (name p) (name q) with Gt => q :: insert_sorted p ps | _ => p :: q :: ps end
  end.
Definition sorted_by_name (ps : list package) : list package := fold_right insert_sorted [] ps.
Definition order_packages (packages : list package) : list text + DepTree.error :=
  toposort_deps (map (fun p => (name p, requirements p)) (sorted_by_name packages)).

(** [usable_build_tools] 696-722. *)
Inductive tool := Gleam | Rebar3 | Mix.
Fixpoint usable (rebar3_present mix_present : bool) (tools : list text) : option (list tool) :=
  match tools with
  | [] =>
      if mix_present && rebar3_present then Some [Mix; Rebar3]
      else if mix_present then Some [Mix]
      else if rebar3_present then Some [Rebar3]
      else None
  | t :: tools =>
      if text_eqb t (str "gleam") then Some [Gleam]
      else if text_eqb t (str "rebar") then usable true mix_present tools
      else if text_eqb t (str "rebar3") then usable true mix_present tools
      else if text_eqb t (str "mix") then usable rebar3_present true tools
      else usable rebar3_present mix_present tools
  end.
Definition usable_build_tools (p : package) : option (list tool) := usable false false (build_tools p).

(** What happened: which packages were given to which tool, in order. *)
Notation trace := (list (text * tool)).
Inductive failure :=
  | PackageCycle (names : list text)
  | UnsupportedBuildTool (package : text)
  | Failed (package : text)
  | Panicked.

Section Build.
(** Whether a tool builds a package ([compile_gleam_dep_package] and so on). *)
Context (builds : text -> tool -> bool).
(** [load_cache_or_compile_package] 332-362; failed builds are also removed. *)
Definition load_cache_or_compile_package (packages : list package) (n : text) : trace * option failure :=
  match get n packages with
  | None => ([], Some Panicked)
  | Some p =>
      let result (ok : bool) := if ok then None else Some (Failed n) in
      match usable_build_tools p with
      | Some [Gleam] => ([(n, Gleam)], result (builds n Gleam))
      | Some [Rebar3] => ([(n, Rebar3)], result (builds n Rebar3))
      | Some [Mix] => ([(n, Mix)], result (builds n Mix))
      | Some [Mix; Rebar3] =>
          if builds n Mix then ([(n, Mix)], None)
          else ([(n, Mix); (n, Rebar3)], result (builds n Rebar3))
      | _ => ([], Some (UnsupportedBuildTool n))
      end
  end.
(** [compile_dependencies] 288-303. *)
Fixpoint compile_sequence (packages : list package) (sequence : list text) : trace * option failure :=
  match sequence with
  | [] => ([], None)
  | n :: sequence =>
      match load_cache_or_compile_package packages n with
      | (done, None) => let (rest, r) := compile_sequence packages sequence in (done ++ rest, r)
      | (done, r) => (done, r)
      end
  end.
Definition compile_dependencies (packages : list package) : trace * option failure :=
  match order_packages packages with
  | inl sequence => compile_sequence packages sequence
  | inr (Cycle l) => ([], Some (PackageCycle l))
  | inr NoFuel => ([], Some Panicked)
  end.
(** [compile] 191-208, up to the dependencies, after [new]. *)
Inductive mode := Dev | Prod | Lsp.
Definition compile (m : mode) (dependencies : list text) (packages : list package) : trace * option failure :=
  let packages := new packages in
  match m with
  | Prod =>
      match retain_only_production_packages dependencies packages with
      | Some packages => compile_dependencies packages
      | None => ([], Some Panicked)
      end
  | _ => compile_dependencies packages
  end.
End Build.
