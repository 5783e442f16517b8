(** Model of compiler-core/src/dep_tree.rs. *)
From Coq Require Import NArith Bool List Arith.
From Verif Require Import Text.
Import ListNotations.

(** ** petgraph

    The library is not part of the repository; [toposort], [Dfs::next] and the
    iteration order of [neighbors] (most recently added edge first) are those of
    petgraph 0.8's [algo::toposort], [visit::Dfs] and [Graph].  Visit maps are lists
    of the visited nodes. *)
Record graph := Graph { node_count : nat; edges : list (nat * nat) }.

Definition neighbors (g : graph) (n : nat) : list nat :=
  rev (map snd (filter (fun e => Nat.eqb (fst e) n) (edges g))).
Definition neighbors_incoming (g : graph) (n : nat) : list nat :=
  rev (map fst (filter (fun e => Nat.eqb (snd e) n) (edges g))).

Definition mem (n : nat) (l : list nat) : bool := existsb (Nat.eqb n) l.

Inductive outcome (A : Type) := Done (a : A) | CycleAt (n : nat) | OutOfFuel.
Arguments Done {A}. Arguments CycleAt {A}. Arguments OutOfFuel {A}.

(** The first half of [toposort]: depth first search from every node, remembering
    the order in which nodes are finished (last finished first).  The head of [stack]
    is its top. *)
Fixpoint search (fuel : nat) (g : graph) (discovered finished stack : list nat)
  : outcome (list nat * list nat) :=
  match fuel with
  | O => OutOfFuel
  | S fuel =>
      match stack with
      | [] => Done (discovered, finished)
      | nx :: below =>
          if mem nx discovered then
            search fuel g discovered (if mem nx finished then finished else nx :: finished) below
          else if mem nx (neighbors g nx) then CycleAt nx
          else
            let discovered := nx :: discovered in
            search fuel g discovered finished
              (rev (filter (fun s => negb (mem s discovered)) (neighbors g nx)) ++ stack)
      end
  end.

Fixpoint search_all (fuel : nat) (g : graph) (discovered finished nodes : list nat)
  : outcome (list nat) :=
  match nodes with
  | [] => Done finished
  | i :: nodes =>
      if mem i discovered then search_all fuel g discovered finished nodes
      else
        match search fuel g discovered finished [i] with
        | Done (discovered, finished) => search_all fuel g discovered finished nodes
        | CycleAt n => CycleAt n
        | OutOfFuel => OutOfFuel
        end
  end.

(** [Dfs::next] on the reversed graph. *)
Fixpoint dfs_next (g : graph) (discovered stack : list nat) : option (nat * list nat * list nat) :=
  match stack with
  | [] => None
  | node :: stack =>
      if mem node discovered then dfs_next g discovered stack
      else
        let discovered := node :: discovered in
        Some (node, discovered,
              rev (filter (fun s => negb (mem s discovered)) (neighbors_incoming g node)) ++ stack)
  end.

(** The second half of [toposort]: a node that is not a component of its own is on
    a cycle. *)
Fixpoint check_components (g : graph) (discovered order : list nat) : option nat :=
  match order with
  | [] => None
  | i :: order =>
      match dfs_next g discovered [i] with
      | None => check_components g discovered order
      | Some (_, discovered, stack) =>
          match dfs_next g discovered stack with
          | Some (j, _, _) => Some j
          | None => check_components g discovered order
          end
      end
  end.

Definition search_fuel (g : graph) : nat := node_count g + length (edges g) + 2.
Definition toposort (g : graph) : outcome (list nat) :=
  match search_all (search_fuel g) g [] [] (seq 0 (node_count g)) with
  | Done order =>
      match check_components g [] order with
      | None => Done order
      | Some j => CycleAt j
      end
  | CycleAt n => CycleAt n
  | OutOfFuel => OutOfFuel
  end.

(** ** dep_tree.rs *)

(** The map [indexes], lines 24-28: the last index inserted for a value. *)
Fixpoint index_from (i : nat) (names : list text) (name : text) : option nat :=
  match names with
  | [] => None
  | n :: names =>
      match index_from (S i) names name with
      | Some j => Some j
      | None => if text_eqb n name then Some i else None
      end
  end.
Definition index_of (inputs : list (text * list text)) (name : text) : option nat :=
  index_from 0 (map fst inputs) name.
(** The map [values]. *)
Definition value_of (inputs : list (text * list text)) (i : nat) : text := nth i (map fst inputs) [].

(** The graph, lines 24-35. *)
Definition input_edges (inputs : list (text * list text)) (input : text * list text) : list (nat * nat) :=
  match index_of inputs (fst input) with
  | None => []
  | Some from => flat_map (fun dep => match index_of inputs dep with Some to => [(from, to)] | None => [] end)
                   (snd input)
  end.
Definition build_graph (inputs : list (text * list text)) : graph :=
  Graph (length inputs) (flat_map (input_edges inputs) inputs).

(** [find_cycle], lines 66-87: the path if one was found, and the nodes seen.  Each
    call sees a new node, hence the fuel. *)
Fixpoint find_cycle (fuel : nat) (g : graph) (origin parent : nat) (seen : list nat)
  : outcome (option (list nat) * list nat) :=
  match fuel with
  | O => OutOfFuel
  | S fuel =>
      (fix loop (nodes seen : list nat) :=
        match nodes with
        | [] => Done (None, seen)
        | node :: nodes =>
            if Nat.eqb node origin then Done (Some [node], seen)
            else if mem node seen then loop nodes seen
            else
              match find_cycle fuel g origin node seen with
              | Done (Some path, seen) => Done (Some (path ++ [node]), seen)
              | Done (None, seen) => loop nodes seen
              | o => o
              end
        end) (neighbors g parent) (parent :: seen)
  end.

Inductive error := Cycle (names : list text) | NoFuel.
(** [import_cycle], lines 48-64. *)
Definition import_cycle (inputs : list (text * list text)) (g : graph) (origin : nat) : error :=
  match find_cycle (S (node_count g)) g origin origin [] with
  | Done (Some path, _) => Cycle (map (value_of inputs) path)
  | Done (None, _) => Cycle []
  | _ => NoFuel
  end.

(** [toposort_deps], lines 19-46. *)
Definition toposort_deps (inputs : list (text * list text)) : list text + error :=
  let g := build_graph inputs in
  match toposort g with
  | Done order => inl (rev (map (value_of inputs) order))
  | CycleAt n => inr (import_cycle inputs g n)
  | OutOfFuel => inr NoFuel
  end.

(** compiler-core/src/dep_tree.rs 98-124: the project's own tests. *)
From Coq Require Import String.
Open Scope string_scope.
Definition entry (s : string) (d : list string) : text * list text := (str s, map str d).
Example toposort_deps_test :
  toposort_deps [entry "a" ["b"]; entry "c" []; entry "b" ["c"]] = inl (map str ["c"; "b"; "a"])
  /\ toposort_deps [entry "no-deps-1" []; entry "no-deps-2" []] = inl (map str ["no-deps-1"; "no-deps-2"])
  /\ toposort_deps [entry "a" ["b"; "z"]; entry "b" ["x"]] = inl (map str ["b"; "a"]).
Proof. repeat split. Qed.
Example cycle_detection :
  toposort_deps [entry "a" ["a"]] = inr (Cycle (map str ["a"]))
  /\ toposort_deps [entry "a" ["b"]; entry "b" ["c"]; entry "c" ["a"]] = inr (Cycle (map str ["c"; "b"; "a"]))
  /\ toposort_deps [entry "a" ["b"]; entry "b" ["c"]; entry "c" ["d"]; entry "d" ["e"]; entry "e" ["b"]; entry "a" ["f"]]
     = inr (Cycle (map str ["e"; "d"; "c"; "b"])).
Proof. repeat split. Qed.
