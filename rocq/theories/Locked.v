(** Which packages keep the versions that a manifest has for them, and what changes between two
    manifests: compiler-core/src/config.rs, config/stale_package_remover.rs, manifest.rs, and
    compiler-cli/src/dependencies.rs.

    A [HashMap] is a list of pairs in an arbitrary order, without two pairs for one key; texts of
    versions, their ranges and the maps are those of [Resolve]. A range is compared by its text, on
    which what it allows depends, and a path by its text. Tracing is left out. *)
From Coq Require Import NArith Bool List.
From Verif Require Import Text Version.
From Verif Require Resolve.
Import ListNotations.
Local Open Scope list_scope.

Notation get := Resolve.get.
Notation remove := Resolve.remove.
Notation insert := Resolve.insert.
Notation contains_key := Resolve.contains_key.
Notation version_eqb := Resolve.version_eqb.
(** [collect] into a map: the last pair of a key stays. *)
Definition collect {A} (l : list (text * A)) : list (text * A) :=
  fold_left (fun m '(k, a) => insert k a m) l [].
(** [contains] of lists and sets of texts. *)
Definition has (n : text) (l : list text) : bool := existsb (text_eqb n) l.

(** ** Requirements and manifests *)

(** requirement.rs:18-37, and its derived [PartialEq]. *)
Inductive requirement :=
  | Hex (spec : text) (allowed : range)
  | Path (path : text)
  | Git (git ref : text) (path : option text).
Definition path_eqb (a b : option text) : bool :=
  match a, b with
  | None, None => true
  | Some a, Some b => text_eqb a b
  | _, _ => false
  end.
Definition requirement_eqb (a b : requirement) : bool :=
  match a, b with
  | Hex s _, Hex t _ => text_eqb s t
  | Path p, Path q => text_eqb p q
  | Git g r p, Git h s q => text_eqb g h && text_eqb r s && path_eqb p q
  | _, _ => false
  end.

(** manifest.rs:243-261, 181-196 and 15-24: the fields used here. *)
Inductive source :=
  | HexSource
  | GitSource (repo commit : text) (path : option text)
  | LocalSource (path : text).
Record package := Package {
  name : text; at_version : version; package_requirements : list text; from : source }.
Record manifest := Manifest { manifest_requirements : list (text * requirement); packages : list package }.

(** config.rs: the fields used here. *)
Record config := Config {
  config_name : text; dependencies : list (text * requirement); dev_dependencies : list (text * requirement) }.

(** ** What stays locked *)

(** config.rs:226-236; [inr] is the error of a dependency listed twice. *)
Fixpoint add_direct (deps : list (text * requirement)) (l : list (text * requirement)) :
    list (text * requirement) + text :=
  match l with
  | [] => inl deps
  | (n, r) :: l => if contains_key n deps then inr n else add_direct (insert n r deps) l
  end.
Definition all_direct_dependencies (c : config) : list (text * requirement) + text :=
  add_direct [] (dependencies c ++ dev_dependencies c).

(** stale_package_remover.rs:69-86; [None] is a stack that is too small. *)
Fixpoint record_tree_fresh (stack : nat) (locked : list (text * list text)) (fresh : list text) (n : text) :
    option (list text) :=
  match stack with
  | O => None
  | S stack =>
      let fresh := n :: fresh in
      match get n locked with
      | None => Some fresh
      | Some deps =>
          fold_left
            (fun fresh n => match fresh with Some fresh => record_tree_fresh stack locked fresh n | None => None end)
            deps (Some fresh)
      end
  end.

(** 40-48 *)
Fixpoint record_unchanged (stack : nat) (locked : list (text * list text)) (old : list (text * requirement))
    (fresh : list text) (requirements : list (text * requirement)) : option (list text) :=
  match requirements with
  | [] => Some fresh
  | (n, r) :: requirements =>
      if match get n old with Some r' => requirement_eqb r' r | None => false end then
        match record_tree_fresh stack locked fresh n with
        | Some fresh => record_unchanged stack locked old fresh requirements
        | None => None
        end
      else record_unchanged stack locked old fresh requirements
  end.

(** 19-67 *)
Definition fresh_and_locked (stack : nat) (requirements : list (text * requirement)) (m : manifest) :
    option (list (text * version)) :=
  let locked := collect (map (fun p => (name p, package_requirements p)) (packages m)) in
  match record_unchanged stack locked (manifest_requirements m) [] requirements with
  | None => None
  | Some fresh =>
      Some (collect (map (fun p => (name p, at_version p))
        (filter (fun p =>
           negb (contains_key (name p) requirements && negb (contains_key (name p) (manifest_requirements m)))
           && has (name p) fresh) (packages m))))
  end.

(** config.rs:257-270 *)
Inductive locking := Locks (l : list (text * version)) | Duplicate (n : text) | Overflow.
Definition locked (stack : nat) (c : config) (m : option manifest) : locking :=
  match m with
  | None => Locks []
  | Some m =>
      match all_direct_dependencies c with
      | inr n => Duplicate n
      | inl requirements =>
          match fresh_and_locked stack requirements m with Some l => Locks l | None => Overflow end
      end
  end.

(** ** Unlocking *)

(** dependencies.rs:1641-1663 *)
Definition find_deps_to_unlock (p : package) (locked : list (text * version)) (m : manifest) : list text :=
  filter (fun dep =>
    contains_key dep locked && negb (contains_key dep (manifest_requirements m))
    && forallb (fun p => negb (contains_key (name p) locked) || negb (has dep (package_requirements p)))
         (packages m)) (package_requirements p).

(** The loop of 1622-1631; the vector is a list from its end. Every turn of the loop takes a name
    from it, and names are only added for a package that was locked. *)
Fixpoint unlock_all (fuel : nat) (locked : list (text * version)) (m : manifest) (todo : list text) :
    option (list (text * version)) :=
  match fuel with
  | O => None
  | S fuel =>
      match todo with
      | [] => Some locked
      | n :: todo =>
          if contains_key n locked then
            let locked := remove n locked in
            match find (fun p => text_eqb (name p) n) (packages m) with
            | Some p => unlock_all fuel locked m (rev (find_deps_to_unlock p locked m) ++ todo)
            | None => unlock_all fuel locked m todo
            end
          else unlock_all fuel locked m todo
      end
  end.

(** 1613-1640 *)
Definition unlock_fuel (to_unlock : list text) (m : manifest) : nat :=
  S (length to_unlock + list_sum (map (fun p => length (package_requirements p)) (packages m))).
Definition unlock_packages (locked : list (text * version)) (to_unlock : list text) (m : option manifest) :
    option (list (text * version)) :=
  match m with
  | Some m => unlock_all (unlock_fuel to_unlock m) locked m (rev to_unlock)
  | None => Some (fold_left (fun l n => remove n l) to_unlock locked)
  end.

(** dependencies.rs:325-361: what [gleam remove] leaves of a manifest; [None] is a stack that is too
    small. *)
Definition is_extra_requirement (c : config) (n : text) : bool :=
  negb (contains_key n (dev_dependencies c)) && negb (contains_key n (dependencies c)).
Definition is_unlockable_requirement (m : manifest) (n : text) : bool :=
  forallb (fun p => negb (has n (package_requirements p))) (packages m).
Definition extra_requirements (c : config) (m : manifest) : list text :=
  filter (fun n => is_extra_requirement c n && is_unlockable_requirement m n) (map fst (manifest_requirements m)).
Definition retained (c : config) (m : manifest) : manifest :=
  Manifest (filter (fun '(n, _) => negb (is_extra_requirement c n)) (manifest_requirements m)) (packages m).
Definition remove_extra_requirements (stack : nat) (c : config) (m : manifest) : option manifest + text :=
  match locked stack c (Some (retained c m)) with
  | Duplicate n => inr n
  | Overflow => inl None
  | Locks l =>
      match unlock_packages l (extra_requirements c m) (Some (retained c m)) with
      | None => inl None
      | Some l => inl (Some (Manifest (manifest_requirements (retained c m))
          (filter (fun p => contains_key (name p) l) (packages m))))
      end
  end.

(** ** Requirements of two manifests *)

(** dependencies.rs:858-874 and 773-789; [canonical] is [fs::canonicalise] of a path from the root of
    the project, and [None] when it fails. *)
Definition same_requirements (canonical : text -> option text) (r1 : requirement) (r2 : option requirement) :
    option bool :=
  match r1, r2 with
  | Path p1, Some (Path p2) =>
      match canonical p1 with
      | None => None
      | Some a =>
          match canonical p2 with
          | None => None
          | Some b => Some (text_eqb a b)
          end
      end
  | _, Some r2 => Some (requirement_eqb r1 r2)
  | _, None => Some false
  end.
Fixpoint all_same (canonical : text -> option text) (requirements1 requirements2 : list (text * requirement)) :
    option bool :=
  match requirements1 with
  | [] => Some true
  | (n, r) :: l =>
      match same_requirements canonical r (get n requirements2) with
      | None => None
      | Some false => Some false
      | Some true => all_same canonical l requirements2
      end
  end.
Definition is_same_requirements canonical (requirements1 requirements2 : list (text * requirement)) : option bool :=
  if negb (Nat.eqb (length requirements1) (length requirements2)) then Some false
  else all_same canonical requirements1 requirements2.

(** ** Packages of two manifests, manifest.rs:610-632 and 672-747 *)
Record changes := Changes {
  added : list (text * version);
  changed : list (text * version * version);
  changed_git : list (text * text * text);
  removed : list text }.

Definition kind (s : source) : N :=
  match s with HexSource => 0 | GitSource _ _ _ => 1 | LocalSource _ => 2 end.

(** The loop of 692-737; [old] is the map of old packages. *)
Fixpoint compare (old : list (text * package)) (new : list package) (c : changes) : changes :=
  match new with
  | [] => Changes (added c) (changed c) (changed_git c) (removed c ++ map fst old)
  | p :: new =>
      let rest := remove (name p) old in
      match get (name p) old with
      | Some q =>
          if negb (kind (from p) =? kind (from q))%N then
            compare rest new
              (Changes (added c ++ [(name p, at_version p)]) (changed c) (changed_git c) (removed c ++ [name q]))
          else if version_eqb (at_version q) (at_version p) then
            match from q, from p with
            | GitSource _ old_hash old_path, GitSource _ new_hash new_path =>
                if negb (text_eqb old_hash new_hash) || negb (path_eqb old_path new_path) then
                  compare rest new
                    (Changes (added c) (changed c) (changed_git c ++ [(name p, old_hash, new_hash)]) (removed c))
                else compare rest new c
            | _, _ => compare rest new c
            end
          else
            compare rest new
              (Changes (added c) (changed c ++ [(name p, at_version q, at_version p)]) (changed_git c) (removed c))
      | None =>
          compare rest new (Changes (added c ++ [(name p, at_version p)]) (changed c) (changed_git c) (removed c))
      end
  end.
Definition between_manifests (old new : manifest) : changes :=
  compare (collect (map (fun p => (name p, p)) (packages old))) (packages new) (Changes [] [] [] []).

(** 673-678 *)
Definition any_package_changes (c : changes) : bool :=
  negb (match added c with [] => true | _ => false end)
  || negb (match changed c with [] => true | _ => false end)
  || negb (match changed_git c with [] => true | _ => false end)
  || negb (match removed c with [] => true | _ => false end).

(** 603-608 and 635-670 *)
Record resolved := Resolved { of_manifest : manifest; package_changes : changes; requirements_changed : bool }.
Definition any_changes (r : resolved) : bool :=
  requirements_changed r || any_package_changes (package_changes r).
Definition all_added (m : manifest) : resolved :=
  Resolved m (Changes (map (fun p => (name p, at_version p)) (packages m)) [] [] []) true.
Definition no_change (m : manifest) : resolved := Resolved m (Changes [] [] [] []) false.
