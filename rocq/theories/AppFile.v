(** The .app file of a package: compiler-core/src/codegen.rs:83-170. *)
From Coq Require Import String NArith List Bool.
From Verif Require Import Text ErlangSource ManifestText.
Import ListNotations.
Local Open Scope list_scope.

(** The parts of config.rs:144-200 [PackageConfig] and 743-757 [ErlangConfig] that are used here. Tables are the list of their keys. *)
Record package_config := PackageConfig {
  name : text; version : text; description : text; dependencies : list text; dev_dependencies : list text;
  application_start_module : option text; application_start_argument : option text; extra_applications : list text }.
(** build.rs:192-198 [ErlangAppCodegenConfiguration] *)
Record configuration := Configuration { include_dev_deps : bool; package_name_overrides : list (text * text) }.

(** build.rs:411-413 *)
Definition module_erlang_name (gleam_name : text) : text := map (fun c => if N.eqb c 47 then 64%N else c) gleam_name.
(** erlang.rs:3740-3750 *)
Definition escape_atom_string (value : text) : text :=
  if is_erlang_reserved_word value then str "'" ++ value ++ str "'"
  else if atom_name_regex value then value
  else str "'" ++ value ++ str "'".

Fixpoint unique (l : list text) : list text :=
  match l with [] => [] | x :: l => x :: filter (fun y => negb (text_eqb x y)) (unique l) end.
Definition sorted (l : list text) : list text := sorted_by (fun s => s) l.
Fixpoint join (sep : text) (l : list text) : text := match l with [] => [] | [x] => x | x :: l => x ++ sep ++ join sep l end.

(** codegen.rs:105-107 *)
Definition tuple (key value : text) : text := str "    {" ++ key ++ str ", " ++ value ++ str "}," ++ [10%N].
(** codegen.rs:111-121 *)
Definition start_module (config : package_config) : text :=
  match application_start_module config with
  | None => []
  | Some module =>
      let module := module_erlang_name module in
      let argument := match application_start_argument config with Some a => a | None => str "[]" end in
      tuple (str "mod") (str "{'" ++ module ++ str "', " ++ argument ++ str "}")
  end.
(** codegen.rs:125-133 *)
Definition module_list (modules cached native : list text) : list text :=
  sorted (unique (map module_erlang_name modules ++ map module_erlang_name cached ++ native)).
Definition spaces (n : nat) : text := repeat 32%N n.
Fixpoint overridden (l : list (text * text)) (n : text) : text :=
  match l with [] => n | (k, v) :: l => if text_eqb k n then v else overridden l n end.
(** codegen.rs:137-150 *)
Definition applications (c : configuration) (config : package_config) : list text :=
  sorted (map (overridden (package_name_overrides c))
            (dependencies config ++ if include_dev_deps c then dev_dependencies config else [])
          ++ extra_applications config).
(** codegen.rs:96-170 *)
Definition render (c : configuration) (config : package_config) (modules cached native : list text) : text :=
  str "{application, " ++ name config ++ str ", [" ++ [10%N]
  ++ start_module config ++ str "    {vsn, """ ++ version config ++ str """}," ++ [10%N]
  ++ str "    {applications, [" ++ join (str "," ++ [10%N] ++ spaces 20) (applications c config) ++ str "]}," ++ [10%N]
  ++ str "    {description, """ ++ description config ++ str """}," ++ [10%N]
  ++ str "    {modules, [" ++ join (str "," ++ [10%N] ++ spaces 15) (map escape_atom_string (module_list modules cached native)) ++ str "]}," ++ [10%N]
  ++ str "    {registered, []}" ++ [10%N]
  ++ str "]}." ++ [10%N].
