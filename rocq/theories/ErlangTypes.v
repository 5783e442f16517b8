(** Types in generated Erlang, compiler-core/src/erlang.rs: specifications of functions, definitions
    of types and records.

    Simplifications: a type keeps what is read here (no publicity, package and inferred variant);
    a variable that is unbound and one that is generic are the same, a link holds its type; hash
    maps are lists of entries with distinct keys, in the order of insertion, and nothing below
    depends on the order they are iterated in; counts are unbounded.  What is done to the builder
    is the list of calls of its methods; [None] is a panic. *)
From Coq Require Import String NArith List Bool.
From Verif Require Import Text Strings ErlangSource.
Import ListNotations.
Local Open Scope nat_scope.
Local Open Scope list_scope.

(** [Type] and [TypeVar], compiler-core/src/type_.rs, 56-116 and 1266-1290. *)
Inductive gtype :=
| GVar (id : N)
| GLink (t : gtype)
| GNamed (module name : text) (arguments : list gtype)
| GFn (arguments : list gtype) (return_ : gtype)
| GTuple (elements : list gtype).

(** [is_prelude_module], type_/prelude.rs, 31-33. *)
Definition is_prelude_module (module : text) : bool := text_eqb module (str "gleam").

(** [ErlangModuleName::new], erlang-generation/src/lib.rs, 46-51. *)
Definition erlang_module_name (module : text) : text :=
  map (fun c => if (c =? 47)%N then 64%N else c) module.

(** [id_to_type_var_str], 3967-3982.  The loop divides by 26 while it can. *)
Fixpoint id_to_type_var_loop (fuel : nat) (last_char : N) (name : text) : option text :=
  match fuel with
  | O => None
  | S fuel =>
      if (26 <=? last_char)%N
      then id_to_type_var_loop fuel (last_char / 26)%N (name ++ [last_char mod 26 + 65]%N)
      else Some (rev (name ++ [last_char mod 26 + 64]%N))
  end.
Definition id_to_type_var_str (id : N) : text :=
  if (id <? 26)%N then [id mod 26 + 65]%N
  else match id_to_type_var_loop (S (N.size_nat id)) id [] with Some name => name | None => [] end.

(** ** Usages of variables *)

(** A [HashMap<u64, u64>]. *)
Definition usages := list (N * N).
Fixpoint usage (id : N) (ids : usages) : option N :=
  match ids with
  | [] => None
  | (i, n) :: ids => if (i =? id)%N then Some n else usage id ids
  end.
(** [entry(id).and_modify(|current| modify current).or_insert(value)] *)
Fixpoint modify_or_insert (modify : N -> N) (value : N) (id : N) (ids : usages) : usages :=
  match ids with
  | [] => [(id, value)]
  | (i, n) :: ids =>
      if (i =? id)%N then (i, modify n) :: ids else (i, n) :: modify_or_insert modify value id ids
  end.
Definition remove (id : N) (ids : usages) : usages :=
  filter (fun '(i, _) => negb (i =? id)%N) ids.

(** The end of [result_type_var_ids], 4045-4063. *)
Definition result_counts (ok_ids err_ids : usages) : usages :=
  fold_left (fun counts '(id, count) =>
    modify_or_insert (fun current => if (current <? count)%N then count else current) count id counts)
    err_ids ok_ids.
Definition add_counts (counts ids : usages) : usages :=
  fold_left (fun ids '(id, count) =>
    modify_or_insert (fun current => (current + count)%N) count id ids) counts ids.

(** [type_var_ids], 4066-4102, and [result_type_var_ids], 4038-4064. *)
Fixpoint type_var_ids (t : gtype) (ids : usages) : usages :=
  match t with
  | GVar id => modify_or_insert (fun count => (count + 1)%N) 1%N id ids
  | GLink t => type_var_ids t ids
  | GNamed module name arguments =>
      let all := fold_left (fun ids argument => type_var_ids argument ids) arguments ids in
      if is_prelude_module module && text_eqb name (str "Result") then
        match arguments with
        | [arg_ok; arg_err] =>
            add_counts (result_counts (type_var_ids arg_ok []) (type_var_ids arg_err [])) ids
        | _ => all
        end
      else all
  | GFn arguments return_ =>
      type_var_ids return_ (fold_left (fun ids argument => type_var_ids argument ids) arguments ids)
  | GTuple elements => fold_left (fun ids element => type_var_ids element ids) elements ids
  end.

(** [collect_type_var_usages], 4028-4036. *)
Definition collect_type_var_usages (ids : usages) (types : list gtype) : usages :=
  fold_left (fun ids t => type_var_ids t ids) types ids.

(** ** Types *)

(** [erl_safe_type_name], 4104-4151. *)
Definition erl_safe_type_name (name : text) : text :=
  if existsb (fun s => text_eqb name (str s))
      ["any"; "arity"; "atom"; "binary"; "bitstring"; "boolean"; "byte"; "char"; "dynamic"; "float";
       "function"; "identifier"; "integer"; "iodata"; "iolist"; "list"; "map";
       "maybe_improper_list"; "mfa"; "module"; "neg_integer"; "nil"; "no_return"; "node";
       "non_neg_integer"; "none"; "nonempty_improper_list"; "nonempty_list"; "nonempty_string";
       "number"; "pid"; "port"; "pos_integer"; "record"; "reference"; "string"; "term"; "timeout";
       "tuple"]%string
  then name ++ str "_" else name.

(** [TypeGenerator], 4153-4178. *)
Record type_generator := TypeGenerator {
  var_as_any : bool;
  var_usages : option usages;
  current_module : text
}.

(** [type_variable_is_used_exactly_once], 4255-4260. *)
Definition used_exactly_once (g : type_generator) (id : N) : bool :=
  match var_usages g with
  | Some u => match usage id u with Some n => (n =? 1)%N | None => false end
  | None => false
  end.

Local Notation "'let*' x ':=' a 'in' b" :=
  (match a with Some x => b | None => None end) (at level 200, x pattern, a at level 100, b at level 200).

(** [start_named_type(name)] and [end_named_type] *)
Definition no_arguments (name : string) : list call := [start_named_type (str name); end_named_type].

(** The iteration over arguments in [type_] and [named_type]. *)
Definition each_type (type_ : gtype -> option (list call)) : list gtype -> option (list call) :=
  fix each l :=
    match l with
    | [] => Some []
    | t :: l => let* a := type_ t in let* b := each l in Some (a ++ b)
    end.

(** [type_] 4203-4235, [type_variable] 4237-4249, [prelude_type] 4262-4322, [named_type]
    4324-4345. *)
Fixpoint type_ (g : type_generator) (t : gtype) : option (list call) :=
  match t with
  | GVar id =>
      Some (if var_as_any g || used_exactly_once g id then no_arguments "any"
            else [type_variable (id_to_type_var_str id)])
  | GLink t => type_ g t
  | GNamed module name arguments =>
      if is_prelude_module module then
        let is s := text_eqb name (str s) in
        if is "Nil"%string then Some [literal_atom_type (str "nil")]
        else if is "Int"%string || is "UtfCodepoint"%string then Some (no_arguments "integer")
        else if is "String"%string then Some (no_arguments "binary")
        else if is "Bool"%string then Some (no_arguments "boolean")
        else if is "Float"%string then Some (no_arguments "float")
        else if is "BitArray"%string then Some (no_arguments "bitstring")
        else if is "List"%string then
          match arguments with
          | list_item :: _ =>
              let* item := type_ g list_item in
              Some ([start_named_type (str "list")] ++ item ++ [end_named_type])
          | [] => None
          end
        else if is "Result"%string then
          match arguments with
          | [ok_type; error_type] =>
              let* ok := type_ g ok_type in
              let* error := type_ g error_type in
              Some ([start_union_type; start_tuple_type; literal_atom_type (str "ok")] ++ ok ++
                    [end_tuple_type; start_tuple_type; literal_atom_type (str "error")] ++ error ++
                    [end_tuple_type; end_union_type])
          | _ => None
          end
        else None
      else
        let safe := erl_safe_type_name (to_snake_case name) in
        let* all := each_type (type_ g) arguments in
        if text_eqb (current_module g) module
        then Some ([start_named_type safe] ++ all ++ [end_named_type])
        else Some ([start_remote_named_type (erlang_module_name module) safe] ++ all ++
                   [end_remote_named_type])
  | GFn arguments return_ =>
      let* all := each_type (type_ g) arguments in
      let* result := type_ g return_ in
      Some ([start_function_type] ++ all ++ [end_function_type_arguments] ++ result ++
            [end_function_type])
  | GTuple elements =>
      let* all := each_type (type_ g) elements in
      Some ([start_tuple_type] ++ all ++ [end_tuple_type])
  end.

(** [function_spec_attribute], 671-701. *)
Definition function_spec_attribute (module function_name : text) (arguments : list gtype)
    (return_ : gtype) : option (list call) :=
  let g := TypeGenerator false (Some (collect_type_var_usages [] (arguments ++ [return_]))) module in
  let* all := each_type (type_ g) arguments in
  let* result := type_ g return_ in
  Some ([start_function_spec function_name (N.of_nat (length arguments)); start_function_type] ++
        all ++ [end_function_type_arguments] ++ result ++ [end_function_type; end_function_spec]).

(** [record_definition], 3566-3581. *)
Definition record_definition (record_name : text) (fields : list (text * gtype)) : option text :=
  let g := TypeGenerator true None [] in
  let* all :=
    fold_right (fun '(field_name, field_type) rest =>
      let* field := type_ g field_type in
      let* rest := rest in
      Some ([record_field; atom field_name] ++ field ++ rest)) (Some []) fields in
  build None ([start_record_attribute (to_snake_case record_name)] ++ all ++ [end_record_attribute]).

(** ** Definitions of types *)

(** [TypedCustomType], ast.rs, 1118-1165: the fields that are read here.  A constructor is its name and the
    types of its arguments. *)
Record custom_type := CustomType {
  ct_name : text;
  ct_constructors : list (text * list gtype);
  ct_opaque : bool;
  ct_parameters : list gtype;
  ct_external : option (text * text)
}.

(** The order of [EcoString]s; the names sorted here are ASCII. *)
Fixpoint text_leb (a b : text) : bool :=
  match a, b with
  | [], _ => true
  | _ :: _, [] => false
  | x :: a, y :: b => if (x =? y)%N then text_leb a b else (x <? y)%N
  end.
(** [sorted] of itertools *)
Fixpoint insert_sorted (a : text) (l : list text) : list text :=
  match l with
  | [] => [a]
  | b :: l => if text_leb a b then a :: b :: l else b :: insert_sorted a l
  end.
Definition sorted (l : list text) : list text := fold_right insert_sorted [] l.

(** [phantom_type_variables], 437-464. *)
Definition phantom_type_variables (c : custom_type) : list text :=
  let definition := collect_type_var_usages [] (ct_parameters c) in
  let constructors :=
    fold_left (fun ids constructor => collect_type_var_usages ids (snd constructor))
      (ct_constructors c) [] in
  let phantom := fold_left (fun ids id => remove id ids) (map fst constructors) definition in
  sorted (map id_to_type_var_str (map fst phantom)).

(** [type_parameter_name], 472-480. *)
Fixpoint type_parameter_name (t : gtype) : option text :=
  match t with
  | GVar id => Some (id_to_type_var_str id)
  | GLink t => type_parameter_name t
  | _ => None
  end.
Fixpoint type_parameter_names (l : list gtype) : option (list text) :=
  match l with
  | [] => Some []
  | t :: l =>
      let* name := type_parameter_name t in let* names := type_parameter_names l in Some (name :: names)
  end.

(** [constructor_type], 375-397. *)
Definition constructor_type (module : text) (constructor : text * list gtype) : option (list call) :=
  let constructor_atom := to_snake_case (fst constructor) in
  match snd constructor with
  | [] => Some [literal_atom_type constructor_atom]
  | arguments =>
      let* all := each_type (type_ (TypeGenerator false None module)) arguments in
      Some ([start_tuple_type; literal_atom_type constructor_atom] ++ all ++ [end_tuple_type])
  end.
Fixpoint constructor_types (module : text) (l : list (text * list gtype)) : option (list call) :=
  match l with
  | [] => Some []
  | c :: l =>
      let* a := constructor_type module c in let* b := constructor_types module l in Some (a ++ b)
  end.

(** [phantom_type], 420-431. *)
Definition phantom_type (phantom : list text) : list call :=
  [start_tuple_type; literal_atom_type (str "gleam_phantom")] ++ map type_variable phantom ++
  [end_tuple_type].

(** [type_definition], 283-359. *)
Definition type_definition (module : text) (c : custom_type) : option (list call) :=
  let name := erl_safe_type_name (to_snake_case (ct_name c)) in
  let* names := type_parameter_names (ct_parameters c) in
  let phantom := phantom_type_variables c in
  let any := no_arguments "any" in
  let* definition :=
    match ct_constructors c, ct_external c, phantom with
    | [], Some (external_module, type_name), _ =>
        Some ([start_remote_named_type (erlang_module_name external_module) type_name] ++
              map type_variable phantom ++ [end_remote_named_type])
    | [], None, [] => Some any
    | [], None, _ => Some ([start_union_type] ++ any ++ phantom_type phantom ++ [end_union_type])
    | [constructor], _, [] => constructor_type module constructor
    | constructors, _, phantom =>
        let* all := constructor_types module constructors in
        Some ([start_union_type] ++ all ++
              match phantom with [] => [] | _ => phantom_type phantom end ++ [end_union_type])
    end in
  Some ([start_type_spec (ct_opaque c) name names] ++ definition ++ [end_type_spec]).

(** [type_export], 3627-3631. *)
Definition type_export (c : custom_type) : text * N :=
  (erl_safe_type_name (to_snake_case (ct_name c)), N.of_nat (length (ct_parameters c))).

(** Lines 243 and 250-252 of [module_document]; the documentation of the module is left out. *)
Fixpoint type_definitions (module : text) (l : list custom_type) : option (list call) :=
  match l with
  | [] => Some []
  | c :: l =>
      let* a := type_definition module c in let* b := type_definitions module l in Some (a ++ b)
  end.
Definition module_types (module : text) (l : list custom_type) : option (list call) :=
  let* all := type_definitions module l in Some (export_type_attribute (map type_export l) :: all).
