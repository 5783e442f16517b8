(** The packages a build needs, and the tools that can build them. *)
From Coq Require Import List String Bool.
From Verif Require Import Text DepTreeSpec Packages.
Import ListNotations.

(** The package that counts when a manifest lists several of one name: the last. *)
Definition listed (manifest : list package) (p : package) : Prop :=
  exists before after, manifest = before ++ p :: after /\ forall q, In q after -> name q <> name p.

(** A dependency, or a requirement of a needed package. *)
Inductive needed (dependencies : list text) (manifest : list package) : text -> Prop :=
  | needed_root n : In n dependencies -> needed dependencies manifest n
  | needed_requirement p n : needed dependencies manifest (name p) -> listed manifest p -> In n (requirements p) ->
      needed dependencies manifest n.

Definition wanted (m : mode) (dependencies : list text) (manifest : list package) (p : package) : Prop :=
  listed manifest p /\ (m = Prod -> needed dependencies manifest (name p)).

(** [t] is tried for [p]: Gleam alone if possible, Mix before rebar3. *)
Definition tools (p : package) : list tool :=
  let has s := existsb (text_eqb (str s)) (build_tools p) in
  if has "gleam"%string then [Gleam]
  else (if has "mix"%string then [Mix] else [])
       ++ (if has "rebar"%string || has "rebar3"%string then [Rebar3] else []).

(** Tools are tried one after another until one works. *)
Inductive tried (builds : text -> tool -> bool) (n : text) : list tool -> list (text * tool) -> bool -> Prop :=
  | tried_none : tried builds n [] [] false
  | tried_works t ts : builds n t = true -> tried builds n (t :: ts) [(n, t)] true
  | tried_fails t ts tr ok : builds n t = false -> tried builds n ts tr ok -> tried builds n (t :: ts) ((n, t) :: tr) ok.

(** Packages are built one after another until one cannot be. *)
Inductive built (builds : text -> tool -> bool) : list package -> list (text * tool) -> option failure -> Prop :=
  | built_all : built builds [] [] None
  | built_next p ps tr tr' r : tried builds (name p) (tools p) tr true -> built builds ps tr' r ->
      built builds (p :: ps) (tr ++ tr') r
  | built_unsupported p ps : tools p = [] -> built builds (p :: ps) [] (Some (UnsupportedBuildTool (name p)))
  | built_failed p ps tr : tools p <> [] -> tried builds (name p) (tools p) tr false ->
      built builds (p :: ps) tr (Some (Failed (name p))).

(** [p] requires [q]. *)
Definition requires (p q : package) : Prop := In (name q) (requirements p).
(** Each package of the list is required by the next, the last by the first. *)
Definition requirement_loop (wanted : package -> Prop) (names : list text) : Prop :=
  exists first rest, names = map name (first :: rest) /\ NoDup names
    /\ (forall p, In p (first :: rest) -> wanted p)
    /\ forall a p q b, (first :: rest) ++ [first] = a ++ p :: q :: b -> requires q p.
