(** What references mean in Gleam and in JavaScript. *)
From Coq Require Import NArith Bool String List.
From Verif Require Import Text JsScope.
Import ListNotations.
Local Open Scope list_scope.

(** ** Names *)
Definition lower (c : N) : Prop := (97 <= c <= 122)%N.
Definition digit (c : N) : Prop := (48 <= c <= 57)%N.
(** Names of Gleam; those of discarded variables begin with an underscore. *)
Definition gleam_name (n : text) : Prop :=
  exists c r, n = c :: r /\ (lower c \/ c = 95%N) /\ Forall (fun c => lower c \/ digit c \/ c = 95%N) r.
(** Variables that the compiler makes, and the argument of [f(_)]. *)
Definition made (n : text) : Prop :=
  In n (map str ["$"; "_pipe"; "_block"; "_use"; "_record"; "_assert_subject"; "_assert_fail"]%string).
Definition hole : text := str "_capture".
Definition written (n : text) : Prop := gleam_name n /\ ~ made n /\ n <> hole.

(** The words of ECMAScript that cannot be names of variables in modules. *)
Definition es_words : list text := map str
  ["await"; "break"; "case"; "catch"; "class"; "const"; "continue"; "debugger"; "default"; "delete"; "do"; "else"; "enum"; "export";
   "extends"; "false"; "finally"; "for"; "function"; "if"; "import"; "in"; "instanceof"; "new"; "null"; "return"; "super"; "switch"; "this";
   "throw"; "true"; "try"; "typeof"; "var"; "void"; "while"; "with"; "yield"; "let"; "static"; "implements"; "interface"; "package";
   "private"; "protected"; "public"; "arguments"; "eval"]%string.
Definition upper (c : N) : Prop := (65 <= c <= 90)%N.
Definition js_identifier (x : text) : Prop :=
  ~ In x es_words
  /\ exists c r, x = c :: r /\ (lower c \/ upper c \/ c = 95%N \/ c = 36%N)
       /\ Forall (fun c => lower c \/ upper c \/ digit c \/ c = 95%N \/ c = 36%N) r.

(** ** Gleam *)

(** What is in scope, the latest first. *)
Definition in_scope := list (text * nat).
Definition latest (env : in_scope) (n : text) (b : nat) : Prop :=
  exists newer older, env = newer ++ (n, b) :: older /\ ~ In n (map fst newer).
Definition latest_made (env : in_scope) (b : nat) : Prop :=
  exists newer n older, env = newer ++ (n, b) :: older /\ made n /\ ~ In b (map snd newer).

(** [means env l r]: the references of [l] are to the bindings [r], one after another. *)
Inductive means : in_scope -> list code -> list nat -> Prop :=
  | means_end env : means env [] []
  | means_let env n b l r : means ((n, b) :: env) l r -> means env (Let n b :: l) r
  | means_use env n b l r : latest env n b -> ~ made n -> means env l r -> means env (Use n :: l) (b :: r)
  | means_held env b l r : latest_made env b -> means env l r -> means env (Held b :: l) (b :: r)
  | means_nested env body r l r' : means env body r -> means env l r' -> means env (Nested body :: l) (r ++ r')
  | means_block env body r l r' : means env body r -> means env l r' -> means env (Block body :: l) (r ++ r')
  | means_fn env args body r l r' : means (args ++ env) body r -> means env l r' -> means env (Fn args body :: l) (r ++ r')
  | means_direct env body r l r' : means env body r -> means env l r' -> means env (Direct body :: l) (r ++ r').

(** Names are names, and arguments have different ones. *)
Definition arguments (args : list (text * nat)) : Prop :=
  NoDup (map fst args) /\ Forall (fun n => written n \/ n = hole) (map fst args).
Inductive proper : list code -> Prop :=
  | proper_end : proper []
  | proper_let n b l : written n \/ made n -> proper l -> proper (Let n b :: l)
  | proper_use n l : written n \/ n = hole -> proper l -> proper (Use n :: l)
  | proper_held b l : proper l -> proper (Held b :: l)
  | proper_nested body l : proper body -> proper l -> proper (Nested body :: l)
  | proper_block body l : proper body -> proper l -> proper (Block body :: l)
  | proper_fn args body l : arguments args -> proper body -> proper l -> proper (Fn args body :: l)
  | proper_direct body l : proper body -> proper l -> proper (Direct body :: l).

(** Blocks whose scope is not restored are the last in theirs. *)
Inductive blocks_last : list code -> Prop :=
  | last_end : blocks_last []
  | last_let n b l : blocks_last l -> blocks_last (Let n b :: l)
  | last_use n l : blocks_last l -> blocks_last (Use n :: l)
  | last_held b l : blocks_last l -> blocks_last (Held b :: l)
  | last_nested body l : blocks_last body -> blocks_last l -> blocks_last (Nested body :: l)
  | last_block body : blocks_last body -> blocks_last [Block body]
  | last_fn args body l : blocks_last body -> blocks_last l -> blocks_last (Fn args body :: l)
  | last_direct body l : blocks_last body -> blocks_last l -> blocks_last (Direct body :: l).

(** ** JavaScript *)

(** The declarations of a block, without those of blocks and functions within it. *)
Fixpoint declarations (l : list js) : list (text * nat) :=
  match l with
  | [] => []
  | Declare x b :: l => (x, b) :: declarations l
  | _ :: l => declarations l
  end.
(** A block: all that it declares, and what it declared so far. A name is that of the innermost block that
    declares it, and there it must be declared before. *)
Definition frame := (list text * list (text * nat))%type.
Inductive finds : list frame -> text -> nat -> Prop :=
  | finds_here all before outer x b : In x all -> In (x, b) before -> finds ((all, before) :: outer) x b
  | finds_outside all before outer x b : ~ In x all -> finds outer x b -> finds ((all, before) :: outer) x b.

(** [runs fs l r]: the references of [l] are to the declarations [r], one after another. *)
Inductive runs : list frame -> list js -> list nat -> Prop :=
  | runs_end fs : runs fs [] []
  | runs_declare all before fs x b l r :
      runs ((all, (x, b) :: before) :: fs) l r -> runs ((all, before) :: fs) (Declare x b :: l) r
  | runs_refer fs x b l r : finds fs x b -> runs fs l r -> runs fs (Refer x :: l) (b :: r)
  | runs_braces fs params body r l r' :
      runs ((map fst (params ++ declarations body), params) :: fs) body r -> runs fs l r' -> runs fs (Braces params body :: l) (r ++ r').

(** No block declares a name twice. *)
Inductive legal : list js -> Prop :=
  | legal_end : legal []
  | legal_declare x b l : legal l -> legal (Declare x b :: l)
  | legal_refer x l : legal l -> legal (Refer x :: l)
  | legal_braces params body l : NoDup (map fst (params ++ declarations body)) -> legal body -> legal l ->
      legal (Braces params body :: l).

(** The names of the module are declared outside of the function. *)
Definition module_frame (globals : in_scope) : frame :=
  (map fst (parameters globals), parameters globals).

(** All that is said of a name in generated code. *)
Inductive occurs (x : text) : list js -> Prop :=
  | occurs_declare b l : occurs x (Declare x b :: l)
  | occurs_parameter b params body l : In (x, b) params -> occurs x (Braces params body :: l)
  | occurs_within params body l : occurs x body -> occurs x (Braces params body :: l)
  | occurs_later c l : occurs x l -> occurs x (c :: l).
