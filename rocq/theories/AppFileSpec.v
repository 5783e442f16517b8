(** What a .app file has to say. *)
From Coq Require Import String NArith List Bool Permutation Sorted.
From Verif Require Import Text ErlTerm AppFile.
Import ListNotations.
Local Open Scope list_scope.

(** Atoms that are read as they are written. *)
Definition bare (a : text) : Prop :=
  (exists c r, a = c :: r /\ small c = true /\ forallb name_char r = true) /\ ~ In a keywords.
(** Texts that are read as they are written between quotation marks [q]. *)
Definition literal (q : N) (s : text) : Prop := ~ In q s /\ ~ In 92%N s.
(** The name of a module in Erlang: its segments with @ between them. *)
Inductive erlang_name : text -> text -> Prop :=
| en_nil : erlang_name [] []
| en_slash s e : erlang_name s e -> erlang_name (47%N :: s) (64%N :: e)
| en_char c s e : c <> 47%N -> erlang_name s e -> erlang_name (c :: s) (c :: e).
(** The name that Erlang knows a package by. *)
Definition known_as (overrides : list (text * text)) (n a : text) : Prop :=
  (exists before after, overrides = before ++ (n, a) :: after /\ ~ In n (map fst before)) \/ a = n /\ ~ In n (map fst overrides).
Definition in_order (l : list text) : Prop := StronglySorted (fun a b => text_cmp a b <> Gt) l.

(** The applications of a package. *)
Inductive application (c : configuration) (config : package_config) : text -> Prop :=
| a_dependency n a : In n (dependencies config) -> known_as (package_name_overrides c) n a -> application c config a
| a_dev_dependency n a : include_dev_deps c = true -> In n (dev_dependencies config) -> known_as (package_name_overrides c) n a -> application c config a
| an_extra a : In a (extra_applications config) -> application c config a.
(** Its modules, in Erlang. *)
Inductive module_of (modules cached native : list text) : text -> Prop :=
| compiled m e : In m modules -> erlang_name m e -> module_of modules cached native e
| not_recompiled m e : In m cached -> erlang_name m e -> module_of modules cached native e
| a_native e : In e native -> module_of modules cached native e.
(** What is started. The argument is any term, written in Erlang. *)
Definition reads_as (s : text) (t : term) : Prop :=
  exists ts, (forall rest, lex Plain (s ++ 125%N :: rest) = match lex Plain (125%N :: rest) with Some l => Some (ts ++ l) | None => None end)
    /\ forall stack out rest, parse stack Need None out (ts ++ rest) = let '(stack, top) := add t stack None in parse stack Had top out rest.
Inductive starts (config : package_config) : list term -> Prop :=
| starts_nothing : application_start_module config = None -> starts config []
| starts_default m e : application_start_module config = Some m -> application_start_argument config = None -> erlang_name m e ->
    starts config [Tuple [Atom (str "mod"); Tuple [Atom e; List []]]]
| starts_with m e s t : application_start_module config = Some m -> application_start_argument config = Some s -> erlang_name m e -> reads_as s t ->
    starts config [Tuple [Atom (str "mod"); Tuple [Atom e; t]]].

Definition says (c : configuration) (config : package_config) (modules cached native : list text) (t : term) : Prop :=
  exists start apps mods,
    t = Tuple [Atom (str "application"); Atom (name config); List (start ++
          [Tuple [Atom (str "vsn"); Str (version config)];
           Tuple [Atom (str "applications"); List (map Atom apps)];
           Tuple [Atom (str "description"); Str (description config)];
           Tuple [Atom (str "modules"); List (map Atom mods)];
           Tuple [Atom (str "registered"); List []]])]
    /\ starts config start
    /\ in_order apps /\ (forall a, In a apps <-> application c config a)
    /\ in_order mods /\ NoDup mods /\ (forall e, In e mods <-> module_of modules cached native e).

(** What configurations are like: names of packages and modules. *)
Record sound (c : configuration) (config : package_config) (modules cached native : list text) : Prop := Sound {
  s_version : literal 34 (version config);
  s_modules : Forall (literal 39) (modules ++ cached ++ native);
  s_start : match application_start_module config with Some m => literal 39 m | None => True end;
  s_argument : match application_start_argument config with Some s => exists t, reads_as s t | None => True end }.
(** Names that Erlang need not have quoted. *)
Record bare_names (c : configuration) (config : package_config) : Prop := BareNames {
  b_name : bare (name config);
  b_dependencies : Forall bare (dependencies config ++ dev_dependencies config ++ extra_applications config);
  b_overrides : Forall (fun x => bare (snd x)) (package_name_overrides c) }.
