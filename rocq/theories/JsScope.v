(** Names of variables in generated JavaScript: the [Scope] of compiler-core/src/javascript/expression.rs,
    and the escaping of compiler-core/src/javascript.rs.

    Of the code that is generated only this is kept: where variables are bound and referred to, and which
    JavaScript blocks and functions there are. *)
From Coq Require Import NArith Bool String List.
From Verif Require Import Text Resolve.
Import ListNotations.
Local Open Scope list_scope.

(** ** Identifiers *)

(** javascript.rs:1456-1517 *)
Definition reserved : list text := map str
  ["await"; "arguments"; "break"; "case"; "catch"; "class"; "const"; "continue"; "debugger"; "default"; "delete"; "do"; "else"; "enum";
   "export"; "extends"; "eval"; "false"; "finally"; "for"; "function"; "if"; "implements"; "import"; "in"; "instanceof"; "interface"; "let";
   "new"; "null"; "package"; "private"; "protected"; "public"; "return"; "static"; "super"; "switch"; "this"; "throw"; "true"; "try";
   "typeof"; "var"; "void"; "while"; "with"; "yield"; "undefined"; "then"]%string.
Definition is_usable_js_identifier (word : text) : bool := negb (existsb (text_eqb word) reserved).
(** 1543-1553 *)
Definition escape_identifier (word : text) : text := word ++ str "$".
Definition maybe_escape_identifier (word : text) : text :=
  if is_usable_js_identifier word then word else escape_identifier word.

(** ** Scopes, expression.rs:143-228 *)

(** decision.rs:32, ast.rs:44-50 *)
Definition ASSIGNMENT_VAR := str "$".
Definition PIPE_VARIABLE := str "_pipe".
Definition BLOCK_VARIABLE := str "_block".
Definition USE_ASSIGNMENT_VARIABLE := str "_use".
Definition RECORD_UPDATE_VARIABLE := str "_record".
Definition CAPTURE_VARIABLE := str "_capture".
Definition ASSERT_SUBJECT_VARIABLE := str "_assert_subject".
Definition ASSERT_FAIL_VARIABLE := str "_assert_fail".

Record scope := Scope {
  user_variables : list (text * N); high_water : list (text * N);
  assignment : option N; pipe : option N; block : option N; use_assignment : option N;
  record_update : option N; capture : option N; assert_subject : option N; assert_fail : option N }.
(** 159-166 *)
Definition new (user_variables : list (text * N)) : scope :=
  Scope user_variables [] None None None None None None None None.

(** 169-181 *)
Definition counter (s : scope) (n : text) : option N :=
  if text_eqb n ASSIGNMENT_VAR then assignment s
  else if text_eqb n PIPE_VARIABLE then pipe s
  else if text_eqb n BLOCK_VARIABLE then block s
  else if text_eqb n USE_ASSIGNMENT_VARIABLE then use_assignment s
  else if text_eqb n RECORD_UPDATE_VARIABLE then record_update s
  else if text_eqb n CAPTURE_VARIABLE then capture s
  else if text_eqb n ASSERT_SUBJECT_VARIABLE then assert_subject s
  else if text_eqb n ASSERT_FAIL_VARIABLE then assert_fail s
  else get n (user_variables s).

(** 184-198 *)
Definition set_counter (s : scope) (n : text) (v : N) : scope :=
  let '(Scope u h a p b us r c asu afa) := s in
  if text_eqb n ASSIGNMENT_VAR then Scope u h (Some v) p b us r c asu afa
  else if text_eqb n PIPE_VARIABLE then Scope u h a (Some v) b us r c asu afa
  else if text_eqb n BLOCK_VARIABLE then Scope u h a p (Some v) us r c asu afa
  else if text_eqb n USE_ASSIGNMENT_VARIABLE then Scope u h a p b (Some v) r c asu afa
  else if text_eqb n RECORD_UPDATE_VARIABLE then Scope u h a p b us (Some v) c asu afa
  else if text_eqb n CAPTURE_VARIABLE then Scope u h a p b us r (Some v) asu afa
  else if text_eqb n ASSERT_SUBJECT_VARIABLE then Scope u h a p b us r c (Some v) afa
  else if text_eqb n ASSERT_FAIL_VARIABLE then Scope u h a p b us r c asu (Some v)
  else Scope (insert n v u) h a p b us r c asu afa.

Definition set_high_water (s : scope) (h : list (text * N)) : scope :=
  let '(Scope u _ a p b us r c asu afa) := s in Scope u h a p b us r c asu afa.
Definition set_user_variables (s : scope) (u : list (text * N)) : scope :=
  let '(Scope _ h a p b us r c asu afa) := s in Scope u h a p b us r c asu afa.

Definition after (o : option N) : N := match o with None => 0 | Some i => i + 1 end.
(** 203-213 *)
Definition advance_counter (s : scope) (n : text) : scope :=
  let next := N.max (after (counter s n)) (after (get n (high_water s))) in
  let s := set_counter s n next in
  if contains_key n (user_variables s) then set_high_water s (insert n next (high_water s)) else s.

(** 224-226: [HashMap::extend] *)
Definition restore_user_variables (s : scope) (previous : list (text * N)) : scope :=
  set_user_variables s (fold_right (fun '(n, v) u => insert n v u) (user_variables s) previous).

(** 322-332 *)
Definition local_var (s : scope) (n : text) : scope * text :=
  match counter s n with
  | None => (set_counter s n 0, maybe_escape_identifier n)
  | Some 0%N => (s, maybe_escape_identifier n)
  | Some i => (s, if text_eqb n ASSIGNMENT_VAR then str "$" ++ decimal i else n ++ str "$" ++ decimal i)
  end.
(** 334-337 *)
Definition next_local_var (s : scope) (n : text) : scope * text := local_var (advance_counter s n) n.

(** ** The code *)

(** What there is in the body of a function. A binding is identified by a number.

    - [Let]: a variable is bound, by an assignment (expression.rs:1219), by a pattern (decision.rs:1455) or by the
      compiler (expression.rs:968, 1775, decision.rs:629, 640, 2446)
    - [Use]: a reference to a variable, a function or a constant of the module (expression.rs:1015)
    - [Held]: a variable that the compiler bound, by the name that it was given
    - [Nested]: code in braces or in a function that is called at once, after which the scope is as before
      (expression.rs:945-953 and 1139-1144, decision.rs:855-882)
    - [Block]: a block in tail position, whose value is assigned, or that is a statement (expression.rs:1127-1130)
    - [Fn]: an anonymous function (expression.rs:1975-2003)
    - [Direct]: a branch of a [case] that always matches, which is not in braces (decision.rs:562-613) *)
Inductive code :=
  | Let (n : text) (b : nat)
  | Use (n : text)
  | Held (b : nat)
  | Nested (body : list code)
  | Block (body : list code)
  | Fn (args : list (text * nat)) (body : list code)
  | Direct (body : list code).

(** JavaScript: declarations, references, and braces with the parameters of a function if they are one. *)
Inductive js :=
  | Declare (x : text) (b : nat)
  | Refer (x : text)
  | Braces (params : list (text * nat)) (body : list js).

Definition set_arguments (s : scope) (args : list (text * nat)) : scope :=
  fold_left (fun s '(n, _) => set_counter s n 0) args s.
(** fun_arguments, javascript.rs:1390-1414 *)
Definition parameters (args : list (text * nat)) : list (text * nat) :=
  map (fun '(n, b) => (maybe_escape_identifier n, b)) args.

(** The names that bindings of the compiler were given. *)
Definition names := list (nat * text).
Fixpoint given (b : nat) (h : names) : text :=
  match h with [] => [] | (k, x) :: h => if Nat.eqb k b then x else given b h end.

Fixpoint generate (s : scope) (h : names) (c : code) {struct c} : scope * names * list js :=
  let statements := fix statements (s : scope) (h : names) (l : list code) {struct l} : scope * names * list js :=
    match l with
    | [] => (s, h, [])
    | c :: l =>
        let '(s, h, out) := generate s h c in
        let '(s, h, out') := statements s h l in (s, h, out ++ out')
    end in
  match c with
  | Let n b => let '(s, x) := next_local_var s n in (s, (b, x) :: h, [Declare x b])
  | Use n => let '(s, x) := local_var s n in (s, h, [Refer x])
  | Held b => (s, h, [Refer (given b h)])
  | Nested body => let '(_, _, out) := statements s h body in (s, h, [Braces [] out])
  | Block body => let '(s, _, out) := statements s h body in (s, h, [Braces [] out])
  | Fn args body =>
      let '(_, _, out) := statements (set_arguments s args) h body in (s, h, [Braces (parameters args) out])
  | Direct body =>
      let '(s', _, out) := statements s h body in (restore_user_variables s' (user_variables s), h, out)
  end.
Fixpoint statements (s : scope) (h : names) (l : list code) : scope * names * list js :=
  match l with
  | [] => (s, h, [])
  | c :: l =>
      let '(s, h, out) := generate s h c in
      let '(s, h, out') := statements s h l in (s, h, out ++ out')
  end.

(** A function of a module whose names are [globals]: javascript.rs:1146-1262, expression.rs:281-320 and 339-351. *)
Definition module_scope (globals : list text) : list (text * N) := map (fun n => (n, 0%N)) globals.
(** fun_arguments with [tail_recursion_used], javascript.rs:1410 *)
Definition loop_parameters (args : list (text * nat)) : list (text * nat) := map (fun '(n, b) => (str "loop$" ++ n, b)) args.
(** tail_call_loop, expression.rs:353-380. The variable has the value of the parameter: they are the same binding. *)
Definition tail_call_loop (args : list (text * nat)) (body : list js) : list js :=
  [Braces [] (flat_map (fun '(n, b) => [Refer (str "loop$" ++ n); Declare (maybe_escape_identifier n) b]) args ++ body)].
Definition module_function (tail_recursion_used : bool) (globals : list text) (args : list (text * nat)) (body : list code) : js :=
  let '(_, _, out) := statements (set_arguments (new (module_scope globals)) args) [] body in
  if tail_recursion_used then Braces (loop_parameters args) (tail_call_loop args out) else Braces (parameters args) out.
