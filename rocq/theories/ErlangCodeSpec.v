(** What Gleam code does, what the type checker makes sure of, and how values are represented in
    Erlang, independently of how code is generated. *)
From Coq Require Import String NArith ZArith List Bool.
From Verif Require Import Text Strings StringsSpec Erl ErlangSource ErlangSourceSpec ErlangTypes
  ErlangCode ErlangRun.
Import ListNotations.
Local Open Scope nat_scope.
Local Open Scope list_scope.

(** ** The text of a string literal *)

Inductive reading := Characters | Backslash | Opening | Digits (n : N).
(** The characters between the quotes; see [contents]. *)
Fixpoint unescape (r : reading) (t : text) : text :=
  match t with
  | [] => []
  | c :: t =>
      match r with
      | Characters => if (c =? 92)%N then unescape Backslash t else c :: unescape Characters t
      | Backslash =>
          match lookup [c] [(str "n", 10%N); (str "r", 13%N); (str "f", 12%N); (str "t", 9%N)] with
          | Some d => d :: unescape Characters t
          | None => if (c =? 117)%N then unescape Opening t else c :: unescape Characters t
          end
      | Opening => unescape (Digits 0) t
      | Digits n =>
          match nibble c with
          | Some d => unescape (Digits (16 * n + d)) t
          | None => n :: unescape Characters t
          end
      end
  end.
Definition unescaped (written : text) : text := unescape Characters written.

(** ** Values *)

(** A function of another module, in Erlang or in Gleam. *)
Inductive foreign := InErlang (module name : text) | InGleam (module name : text).
(** [Bool] and [Nil] are types of records without fields.  A closure is of a function. *)
Inductive value :=
| DInt (z : Z)
| DString (t : text)
| DRecord (constructor : text) (fields : list value)
| DTuple (elements : list value)
| DNil
| DCons (first rest : value)
| DClosure (function : text) (arguments : list arg_names) (body : list stmt) (env : list (text * value))
| DConstructor (name : text) (arity : nat)
| DFunction (name : text) (arity : N)
| DForeign (f : foreign) (arity : N).
Definition variables := list (text * value).
Definition truth (b : bool) : value := DRecord (if b then str "True" else str "False") [].
Definition as_bool (v : value) : option bool :=
  match v with
  | DRecord c [] =>
      if text_eqb c (str "True") then Some true
      else if text_eqb c (str "False") then Some false else None
  | _ => None
  end.

Fixpoint first_order (v : value) : bool :=
  match v with
  | DInt _ | DString _ | DNil => true
  | DRecord _ l | DTuple l => forallb first_order l
  | DCons a b => first_order a && first_order b
  | DClosure _ _ _ _ | DConstructor _ _ | DFunction _ _ | DForeign _ _ => false
  end.

(** Whether two values of the same type are equal; functions are not compared. *)
Fixpoint equal (v w : value) : option bool :=
  let fix all l m :=
    match l, m with
    | [], [] => Some true
    | a :: l, b :: m => match equal a b with Some true => all l m | r => r end
    | _, _ => None
    end in
  match v, w with
  | DInt x, DInt y => Some (x =? y)%Z
  | DString s, DString t => Some (text_eqb s t)
  | DRecord c l, DRecord d m => if text_eqb c d then all l m else Some false
  | DTuple l, DTuple m => all l m
  | DNil, DNil => Some true
  | DNil, DCons _ _ | DCons _ _, DNil => Some false
  | DCons a b, DCons a' b' => match equal a a' with Some true => equal b b' | r => r end
  | _, _ => None
  end.

(** Operators that evaluate both sides.  Dividing by zero gives zero. *)
Definition compute (op : binop) (v w : value) : option value :=
  match op, v, w with
  | Eq_, _, _ => option_map truth (equal v w)
  | NotEq, _, _ => option_map (fun b => truth (negb b)) (equal v w)
  | LtInt, DInt x, DInt y => Some (truth (x <? y)%Z)
  | LtEqInt, DInt x, DInt y => Some (truth (x <=? y)%Z)
  | GtInt, DInt x, DInt y => Some (truth (y <? x)%Z)
  | GtEqInt, DInt x, DInt y => Some (truth (y <=? x)%Z)
  | AddInt, DInt x, DInt y => Some (DInt (x + y))
  | SubInt, DInt x, DInt y => Some (DInt (x - y))
  | MultInt, DInt x, DInt y => Some (DInt (x * y))
  | DivInt, DInt x, DInt y => Some (DInt (if (y =? 0)%Z then 0 else Z.quot x y))
  | RemainderInt, DInt x, DInt y => Some (DInt (if (y =? 0)%Z then 0 else Z.rem x y))
  | Concatenate, DString s, DString t => Some (DString (s ++ t))
  | _, _, _ => None
  end.

(** ** Patterns *)

Definition all_match {A} (one : A -> value -> option (option variables))
    : list A -> list value -> option (option variables) :=
  fix all l vs :=
    match l, vs with
    | [], [] => Some (Some [])
    | p :: l, v :: vs =>
        match one p v with
        | Some (Some b) =>
            match all l vs with Some (Some b') => Some (Some (b' ++ b)) | r => r end
        | r => r
        end
    | _, _ => None
    end.
(** [Some None] is no match; [None] is that the value does not have the type of the pattern. *)
Fixpoint matches (p : pattern) (v : value) : option (option variables) :=
  let is (b : bool) : option (option variables) := Some (if b then Some [] else None) in
  match p with
  | PDiscard _ => is true
  | PVariable _ x => Some (Some [(x, v)])
  | PInt _ z => match v with DInt y => is (z =? y)%Z | _ => None end
  | PString _ w => match v with DString t => is (text_eqb (unescaped w) t) | _ => None end
  | PAssign _ x p =>
      match matches p v with Some (Some b) => Some (Some ((x, v) :: b)) | r => r end
  | PTuple _ l => match v with DTuple vs => all_match matches l vs | _ => None end
  | PConstructor _ c l =>
      match v with
      | DRecord d vs => if text_eqb c d then all_match matches l vs else Some None
      | _ => None
      end
  | PList _ l tail =>
      (fix elements l v :=
         match l with
         | [] =>
             match tail with
             | Some p => matches p v
             | None => match v with DNil => is true | DCons _ _ => is false | _ => None end
             end
         | p :: l =>
             match v with
             | DNil => is false
             | DCons a v =>
                 match matches p a with
                 | Some (Some b) =>
                     match elements l v with Some (Some b') => Some (Some (b' ++ b)) | r => r end
                 | r => r
                 end
             | _ => None
             end
         end) l v
  | PStringPrefix _ prefix alias rest _ =>
      match v with
      | DString t =>
          if starts_with (unescaped prefix) t then
            Some (Some (match rest with
                        | Some x => [(x, DString (skipn (length (unescaped prefix)) t))]
                        | None => []
                        end ++
                        match alias with
                        | Some (x, _) => [(x, DString (unescaped prefix))]
                        | None => []
                        end))
          else Some None
      | _ => None
      end
  end.

(** ** Guards *)

Fixpoint guard_value (env : variables) (g : guard) : option value :=
  match g with
  | GuardInt z => Some (DInt z)
  | GuardString w => Some (DString (unescaped w))
  | GuardRecord c => Some (DRecord c [])
  | GuardVar x _ => lookup x env
  | GuardBlock g => guard_value env g
  | GuardNot g =>
      match guard_value env g with
      | Some v => option_map (fun b => truth (negb b)) (as_bool v)
      | None => None
      end
  | GuardBinaryOperator And g g' =>
      match guard_value env g with
      | Some v =>
          match as_bool v with
          | Some true => guard_value env g' | Some false => Some (truth false) | None => None
          end
      | None => None
      end
  | GuardBinaryOperator Or g g' =>
      match guard_value env g with
      | Some v =>
          match as_bool v with
          | Some false => guard_value env g' | Some true => Some (truth true) | None => None
          end
      | None => None
      end
  | GuardBinaryOperator op g g' =>
      match guard_value env g, guard_value env g' with
      | Some v, Some w => compute op v w
      | _, _ => None
      end
  | GuardTupleIndex g i =>
      match guard_value env g with Some (DTuple l) => nth_error l (N.to_nat i) | _ => None end
  | GuardFieldAccess g i =>
      match guard_value env g with Some (DRecord _ l) => nth_error l (N.to_nat i) | _ => None end
  end.

(** ** Evaluation *)

(** Where code stopped: the kind, the message, the function and the line, and for [let assert] the
    value, and where the assertion, its value and its pattern are. *)
Record failure := Failed {
  kind : error_kind; message : value; in_function : text; line : N;
  about : option (value * (N * N) * (N * N)) }.
Definition default_message (kind : error_kind) : text :=
  match kind with
  | Panic => str "`panic` expression evaluated."
  | LetAssert => str "Pattern match failed, no pattern matched the value."
  | Todo => str "`todo` expression evaluated. This code has not yet been implemented."
  end.
Fixpoint pattern_span (p : pattern) : N * N :=
  match p with
  | PDiscard l | PInt l _ | PString l _ | PVariable l _ | PTuple l _ | PList l _ _
  | PConstructor l _ _ | PStringPrefix l _ _ _ _ => l
  | PAssign l _ p => (fst (pattern_span p), snd l)
  end.

(** What functions of other modules were called with, the last call first. *)
Definition past := list (foreign * list value).
Definition result (A : Type) : Type := option (past * (A + failure)).
Definition gives {A} (h : past) (a : A) : result A := Some (h, inl a).
Definition stops {A} (h : past) (f : failure) : result A := Some (h, inr f).
Definition next {A B} (m : result A) (f : past -> A -> result B) : result B :=
  match m with
  | Some (h, inl a) => f h a
  | Some (h, inr e) => Some (h, inr e)
  | None => None
  end.
Definition of_option {A} (h : past) (a : option A) : result A :=
  match a with Some a => gives h a | None => None end.

Fixpoint arguments_values (l : list arg_names) (vs : list value) : option variables :=
  match l, vs with
  | [], [] => Some []
  | ArgDiscard _ :: l, _ :: vs => arguments_values l vs
  | ArgNamed x _ :: l, v :: vs => option_map (cons (x, v)) (arguments_values l vs)
  | _, _ => None
  end.
Fixpoint function_named (l : list function) (name : text) : option function :=
  match l with
  | [] => None
  | f :: l => if text_eqb name (f_name f) then Some f else function_named l name
  end.

Section Gleam.
(** The functions of the module, and what those of others give, from what they were called with. *)
Context (module : text) (lines : N -> N) (functions : list function)
  (world : past -> foreign -> list value -> option value).

(** The patterns of clauses in the order they are tried. *)
Definition branches (clauses : list (list pattern * list (list pattern) * option guard * expr))
    : list (list pattern * option guard * expr) :=
  flat_map (fun '(first, others, g, then_) => map (fun ps => (ps, g, then_)) (first :: others)) clauses.

Definition variable_value (env : variables) (x : text) (c : variant) : option value :=
  match c with
  | LocalVariable _ => lookup x env
  | Record_ c None => Some (DRecord c [])
  | Record_ c (Some n) => Some (DConstructor c n)
  | ModuleFn _ _ arity (Some (m, f)) _ => Some (DForeign (InErlang m f) arity)
  | ModuleFn m f arity None _ =>
      Some (if text_eqb m module then DFunction f arity else DForeign (InGleam m f) arity)
  end.

(** Everything is evaluated from left to right, once. *)
Fixpoint value_of (n : nat) (fn : text) (env : variables) (h : past) (e : expr) {struct n}
    : result value :=
  match n with
  | O => None
  | S n =>
      match e with
      | Int z => gives h (DInt z)
      | String_ w => gives h (DString (unescaped w))
      | Var x c => of_option h (variable_value env x c)
      | Block l => value_of_body n fn env h l
      | NegateBool e =>
          next (value_of n fn env h e) (fun h v =>
            of_option h (option_map (fun b => truth (negb b)) (as_bool v)))
      | NegateInt e =>
          next (value_of n fn env h e) (fun h v =>
            match v with DInt z => gives h (DInt (- z)) | _ => None end)
      | BinOp And a b =>
          next (value_of n fn env h a) (fun h v =>
            match as_bool v with
            | Some true => value_of n fn env h b
            | Some false => gives h (truth false)
            | None => None
            end)
      | BinOp Or a b =>
          next (value_of n fn env h a) (fun h v =>
            match as_bool v with
            | Some false => value_of n fn env h b
            | Some true => gives h (truth true)
            | None => None
            end)
      | BinOp Concatenate a b =>
          next (value_of n fn env h a) (fun h v =>
            match v with
            | DString s =>
                next (value_of n fn env h b) (fun h w =>
                  match w with DString t => gives h (DString (s ++ t)) | _ => None end)
            | _ => None
            end)
      | BinOp op a b =>
          next (value_of n fn env h a) (fun h v =>
            next (value_of n fn env h b) (fun h w => of_option h (compute op v w)))
      | List_ l tail =>
          next (values_of n fn env h l) (fun h vs =>
            next match tail with Some e => value_of n fn env h e | None => gives h DNil end
              (fun h v => gives h (fold_right DCons v vs)))
      | Tuple l => next (values_of n fn env h l) (fun h vs => gives h (DTuple vs))
      | TupleIndex e i =>
          next (value_of n fn env h e) (fun h v =>
            match v with DTuple l => of_option h (nth_error l (N.to_nat i)) | _ => None end)
      | RecordAccess e i =>
          next (value_of n fn env h e) (fun h v =>
            match v with DRecord _ l => of_option h (nth_error l (N.to_nat i)) | _ => None end)
      | RecordUpdate (Some x) e _ f args =>
          next (value_of n fn env h e) (fun h v => value_of n fn ((x, v) :: env) h (Call f args))
      | RecordUpdate None _ _ f args => value_of n fn env h (Call f args)
      | Fn args body _ => gives h (DClosure fn args body env)
      | Call f args =>
          next (value_of n fn env h f) (fun h f =>
            next (values_of n fn env h args) (fun h vs => applied n h f vs))
      | Pipeline steps last => value_of_steps n fn env h steps last
      | Failure k location m =>
          next match m with
               | Some e => value_of n fn env h e
               | None => gives h (DString (default_message k))
               end (fun h v => stops h (Failed k v fn (lines (fst location)) None))
      | Case subjects clauses =>
          next (values_of n fn env h subjects) (fun h vs =>
            value_of_branches n fn env h vs (branches clauses))
      end
  end
with values_of (n : nat) (fn : text) (env : variables) (h : past) (l : list expr) {struct n}
    : result (list value) :=
  match n with
  | O => None
  | S n =>
      match l with
      | [] => gives h []
      | e :: l =>
          next (value_of n fn env h e) (fun h v =>
            next (values_of n fn env h l) (fun h vs => gives h (v :: vs)))
      end
  end
with value_of_steps (n : nat) (fn : text) (env : variables) (h : past)
    (l : list (text * span * expr)) (last : expr) {struct n} : result value :=
  match n with
  | O => None
  | S n =>
      match l with
      | [] => value_of n fn env h last
      | (x, _, e) :: l =>
          next (value_of n fn env h e) (fun h v => value_of_steps n fn ((x, v) :: env) h l last)
      end
  end
with value_of_body (n : nat) (fn : text) (env : variables) (h : past) (l : list stmt) {struct n}
    : result value :=
  match n with
  | O => None
  | S n =>
      match l with
      | [] => None
      | s :: l =>
          next match s with
               | Expression_ e => next (value_of n fn env h e) (fun h v => gives h (v, env))
               | Let p e =>
                   next (value_of n fn env h e) (fun h v =>
                     match matches p v with
                     | Some (Some b) => gives h (v, b ++ env)
                     | _ => None
                     end)
               | LetAssert_ p e e_end m location =>
                   next (value_of n fn env h e) (fun h v =>
                     match matches p v with
                     | Some (Some b) => gives h (v, b ++ env)
                     | Some None =>
                         next match m with
                              | Some e => value_of n fn env h e
                              | None => gives h (DString (default_message LetAssert))
                              end (fun h m =>
                           stops h (Failed LetAssert m fn (lines (fst location))
                                      (Some (v, (fst location, e_end), pattern_span p))))
                     | None => None
                     end)
               end (fun h r =>
            match l with
            | [] => gives h (fst r)
            | _ :: _ => value_of_body n fn (snd r) h l
            end)
      end
  end
with value_of_branches (n : nat) (fn : text) (env : variables) (h : past) (vs : list value)
    (l : list (list pattern * option guard * expr)) {struct n} : result value :=
  match n with
  | O => None
  | S n =>
      match l with
      | [] => None
      | (ps, g, then_) :: l =>
          match all_match matches ps vs with
          | Some (Some b) =>
              match g with
              | None => value_of n fn (b ++ env) h then_
              | Some g =>
                  match guard_value (b ++ env) g with
                  | Some v =>
                      match as_bool v with
                      | Some true => value_of n fn (b ++ env) h then_
                      | Some false => value_of_branches n fn env h vs l
                      | None => None
                      end
                  | None => None
                  end
              end
          | Some None => value_of_branches n fn env h vs l
          | None => None
          end
      end
  end
(** What is given to functions of other modules has no functions in it. *)
with applied (n : nat) (h : past) (f : value) (vs : list value) {struct n} : result value :=
  match n with
  | O => None
  | S n =>
      match f with
      | DClosure fn args body env =>
          match arguments_values args vs with
          | Some b => value_of_body n fn (b ++ env) h body
          | None => None
          end
      | DConstructor c k => if Nat.eqb (length vs) k then gives h (DRecord c vs) else None
      | DFunction f arity =>
          if (arity =? N.of_nat (length vs))%N then
            match function_named functions f with
            | Some f =>
                match arguments_values (f_arguments f) vs with
                | Some b => value_of_body n (f_name f) b h (f_body f)
                | None => None
                end
            | None => None
            end
          else None
      | DForeign f arity =>
          if (arity =? N.of_nat (length vs))%N && forallb first_order vs then
            match world h f vs with
            | Some v => if first_order v then gives ((f, vs) :: h) v else None
            | None => None
            end
          else None
      | _ => None
      end
  end.
End Gleam.

(** ** Programs *)

(** Variables have names, and the places where they are bound.  A variable of the source has a
    plain name; the compiler makes others, which begin with an underscore. *)
Definition scope := list (text * span).
Definition legal_name (x : text) : Prop := valid_name x = true /\ x <> str "_value".
Fixpoint bound_by (p : pattern) : scope :=
  match p with
  | PDiscard _ | PInt _ _ | PString _ _ => []
  | PVariable l x => [(x, l)]
  | PAssign l x p => bound_by p ++ [(x, l)]
  | PTuple _ ps | PConstructor _ _ ps => flat_map bound_by ps
  | PList _ ps tail =>
      flat_map bound_by ps ++ match tail with Some p => bound_by p | None => [] end
  | PStringPrefix _ _ alias rest l =>
      match alias with Some b => [b] | None => [] end ++
      match rest with Some x => [(x, l)] | None => [] end
  end.
(** The names of prefixes. *)
Fixpoint aliased (p : pattern) : list text :=
  match p with
  | PDiscard _ | PInt _ _ | PString _ _ | PVariable _ _ => []
  | PAssign _ _ p => aliased p
  | PTuple _ ps | PConstructor _ _ ps => flat_map aliased ps
  | PList _ ps tail => flat_map aliased ps ++ match tail with Some p => aliased p | None => [] end
  | PStringPrefix _ _ alias _ _ => match alias with Some (x, _) => [x] | None => [] end
  end.
Definition literal_text (w : text) : Prop := contents w (unescaped w).
Fixpoint legal_pattern (p : pattern) : Prop :=
  match p with
  | PDiscard _ | PInt _ _ | PVariable _ _ => True
  | PString _ w => literal_text w
  | PAssign _ _ p => legal_pattern p
  | PTuple _ ps => each legal_pattern ps
  | PConstructor _ c ps => valid_upname c = true /\ each legal_pattern ps
  | PList _ ps tail =>
      each legal_pattern ps /\ match tail with Some p => legal_pattern p | None => True end
  | PStringPrefix _ w _ _ _ => literal_text w
  end.
(** Variables that are bound together have different names, and are bound in places of their own. *)
Definition fresh (used : list span) (new : scope) : Prop :=
  NoDup (map fst new) /\ NoDup (map snd new) /\
  Forall (fun b => legal_name (fst b) /\ ~ In (snd b) used) new.
Definition arguments_bound (l : list arg_names) : scope :=
  flat_map (fun a => match a with ArgDiscard _ => [] | ArgNamed x l => [(x, l)] end) l.

Fixpoint guard_mentions (g : guard) : list text :=
  match g with
  | GuardVar x _ => [x]
  | GuardInt _ | GuardString _ | GuardRecord _ => []
  | GuardBlock g | GuardNot g | GuardTupleIndex g _ | GuardFieldAccess g _ => guard_mentions g
  | GuardBinaryOperator _ g g' => guard_mentions g ++ guard_mentions g'
  end.
(** A string literal, or a variable that stands for one. *)
Fixpoint guard_text (aliases : list text) (g : guard) : Prop :=
  match g with
  | GuardString _ => True
  | GuardVar x _ => In x aliases
  | GuardBlock g => guard_text aliases g
  | _ => False
  end.
(** No division, and no concatenation with the name of a prefix: see [C70]. *)
Fixpoint legal_guard (vars : scope) (aliases : list text) (g : guard) : Prop :=
  match g with
  | GuardInt _ => True
  | GuardString w => literal_text w
  | GuardRecord c => valid_upname c = true
  | GuardVar x l => lookup x vars = Some l
  | GuardBlock g => legal_guard vars aliases g
  | GuardNot g => legal_guard vars aliases g /\ ~ guard_text aliases g
  | GuardBinaryOperator op g g' =>
      legal_guard vars aliases g /\ legal_guard vars aliases g' /\
      match op with
      | DivInt | RemainderInt => False
      | Concatenate =>
          forall x, In x aliases -> ~ In x (guard_mentions g) /\ ~ In x (guard_mentions g')
      | _ => True
      end
  | GuardTupleIndex g _ | GuardFieldAccess g _ =>
      legal_guard vars aliases g /\ forall x, In x aliases -> ~ In x (guard_mentions g)
  end.

(** A string literal, maybe in blocks. *)
Fixpoint text_literal (e : expr) : bool :=
  match e with
  | String_ _ => true
  | Block [Expression_ e] => text_literal e
  | _ => false
  end.
(** No operator, maybe in blocks. *)
Fixpoint may_be_called (e : expr) : bool :=
  match e with
  | Int _ | NegateBool _ | NegateInt _ | BinOp _ _ _ => false
  | Block [Expression_ e] => may_be_called e
  | _ => true
  end.
(** Evaluating it has no effect, whenever it is: nothing is called but constructors. *)
Definition constructor_ (e : expr) : bool := match e with Var _ (Record_ _ _) => true | _ => false end.
Fixpoint settled (e : expr) : bool :=
  match e with
  | Int _ | String_ _ | Var _ _ | Fn _ _ _ => true
  | NegateBool e | NegateInt e | RecordAccess e _ | TupleIndex e _ => settled e
  | BinOp _ a b => settled a && settled b
  | Tuple l => forallb settled l
  | List_ l tail => forallb settled l && match tail with Some e => settled e | None => true end
  | Block l => forallb settled_statement l
  | Pipeline l last => forallb (fun '(_, e) => settled e) l && settled last
  | Call f args => constructor_ f && forallb settled args
  | RecordUpdate (Some _) e _ f args => settled e && constructor_ f && forallb settled args
  | RecordUpdate None _ _ f args => constructor_ f && forallb settled args
  | Case subjects clauses =>
      forallb settled subjects && forallb (fun '(_, _, _, then_) => settled then_) clauses
  | Failure _ _ _ => false
  end
with settled_statement (s : stmt) : bool :=
  match s with
  | Expression_ e | Let _ e => settled e
  | LetAssert_ _ _ _ _ _ => false
  end.

(** A call or a failure is in sight in it: it is not within the operands of an operator, the elements
    of a list or a tuple, or the fields of a record. *)
Fixpoint builds (e : expr) : bool := match e with Call f _ => builds f | _ => constructor_ e end.
Definition may_act (f : expr) : bool :=
  match f with
  | Var _ (ModuleFn _ _ _ _ pure) | Fn _ _ pure => negb pure
  | _ => negb (builds f)
  end.
Fixpoint shows_effect (e : expr) : bool :=
  match e with
  | NegateBool e | NegateInt e => shows_effect e
  | Block l => existsb statement_shows_effect l
  | Pipeline l last => existsb (fun '(_, e) => shows_effect e) l || shows_effect last
  | Call f args => may_act f || existsb shows_effect args
  | Case subjects clauses =>
      existsb shows_effect subjects || existsb (fun '(_, _, _, then_) => shows_effect then_) clauses
  | Failure _ _ _ => true
  | _ => false
  end
with statement_shows_effect (s : stmt) : bool :=
  match s with
  | Expression_ e | Let _ e => shows_effect e
  | LetAssert_ _ _ _ _ _ => true
  end.

(** What the other modules are called in Erlang. *)
Definition exported_name (f : text) : text :=
  if text_eqb f (str "module_info") then str "moduleInfo" else f.
Definition foreign_module (f : foreign) : text :=
  match f with InErlang m _ | InGleam m _ => erlang_module_name m end.
Definition foreign_name (f : foreign) : text :=
  match f with InErlang _ f => f | InGleam _ f => exported_name f end.
(** Functions that Erlang itself has are not left to the [world]. *)
Definition legal_foreign (f : foreign) : Prop :=
  atom_name (foreign_module f) = true /\ atom_name (foreign_name f) = true /\
  ~ (foreign_module f = str "erlang" /\
     (foreign_name f = str "element" \/ foreign_name f = str "error")).

Section Legal.
Context (module : text).

(** An external function of Erlang is of another module, and not called module_info, see
    [C70]. *)
Definition legal_variable (vars : scope) (x : text) (c : variant) : Prop :=
  match c with
  | LocalVariable l => lookup x vars = Some l
  | Record_ c _ => valid_upname c = true
  | ModuleFn _ _ _ (Some (m, f)) _ =>
      m <> module /\ f <> str "module_info" /\ legal_foreign (InErlang m f)
  | ModuleFn m f _ None _ =>
      if text_eqb m module then x = f /\ valid_name f = true else legal_foreign (InGleam m f)
  end.

Section Open.
(** [legal] below.  What is divided has no effect, or one that is in sight, see [C70]. *)
Context (legal : list span -> scope -> expr -> Prop).

(** [used] are places where variables are bound, that no other variable is bound at. *)
Fixpoint legal_body (used : list span) (vars : scope) (l : list stmt) : Prop :=
  match l with
  | [] => True
  | Expression_ e :: l => legal used vars e /\ legal_body used vars l
  | Let p e :: l =>
      let new := bound_by p in
      legal (map snd new ++ used) vars e /\ legal_pattern p /\ aliased p = [] /\ fresh used new /\
      legal_body (map snd new ++ used) (new ++ vars) l
  | LetAssert_ p e _ m _ :: l =>
      let new := bound_by p in
      legal (map snd new ++ used) vars e /\ legal_pattern p /\ fresh used new /\
      match m with Some m => legal used vars m | None => True end /\
      legal_body (map snd new ++ used) (new ++ vars) l
  end.
Definition legal_steps (last : expr)
    : list span -> scope -> list (text * span * expr) -> Prop :=
  fix legal_steps used vars l :=
    match l with
    | [] => legal used vars last
    | (x, at_, e) :: l =>
        legal (at_ :: used) vars e /\ fresh used [(x, at_)] /\
        legal_steps (at_ :: used) ((x, at_) :: vars) l
    end.
(** Alternative patterns bind the same names; the variables of a clause are those of the first. *)
Definition legal_clause (used : list span) (vars : scope) (subjects : nat)
    (clause : list pattern * list (list pattern) * option guard * expr) : Prop :=
  let '(first, others, g, then_) := clause in
  let new := flat_map bound_by first in
  each (fun ps => length ps = subjects /\ each legal_pattern ps) (first :: others) /\
  fresh used new /\
  each (fun ps => fresh (map snd new ++ used) (flat_map bound_by ps) /\
                  forall x, In x (map fst new) <-> In x (map fst (flat_map bound_by ps))) others /\
  match g with
  | Some g => each (fun ps => legal_guard (new ++ vars) (flat_map aliased ps) g) (first :: others)
  | None => True
  end /\
  legal (map snd new ++ used) (new ++ vars) then_ /\ then_ <> Block [].

Definition legal_call (used : list span) (vars : scope) (f : expr) (args : list expr) : Prop :=
  legal used vars f /\ may_be_called f = true /\ each (legal used vars) args.
Definition legal_ (used : list span) (vars : scope) (e : expr) : Prop :=
  match e with
  | Int _ => True
  | String_ w => literal_text w
  | Var x c => legal_variable vars x c
  | Block l => l <> [] /\ legal_body used vars l
  | NegateBool e | NegateInt e => legal used vars e /\ text_literal e = false
  | BinOp op a b =>
      legal used vars a /\ legal used vars b /\
      match op with
      | DivInt | RemainderInt =>
          settled a = true \/ shows_effect a = true \/ match b with Int z => z <> 0%Z | _ => False end
      | Concatenate =>
          Forall (fun e => text_literal e = true -> exists w, e = String_ w) [a; b]
      | _ => True
      end
  | List_ l tail =>
      each (legal used vars) l /\
      match tail with Some e => l <> [] /\ legal used vars e | None => True end
  | Tuple l => each (legal used vars) l
  | TupleIndex e _ | RecordAccess e _ => legal used vars e
  | RecordUpdate (Some x) e l f args =>
      legal (l :: used) vars e /\ fresh used [(x, l)] /\
      legal_call (l :: used) ((x, l) :: vars) f args
  | RecordUpdate None _ _ f args => legal_call used vars f args
  | Fn args body _ =>
      let new := arguments_bound args in
      fresh used new /\ body <> [] /\ legal_body (map snd new ++ used) (new ++ vars) body
  | Call f args => legal_call used vars f args
  | Pipeline steps last => legal_steps last used vars steps
  | Failure _ _ m => match m with Some e => legal used vars e | None => True end
  | Case subjects clauses =>
      each (legal used vars) subjects /\ clauses <> [] /\
      each (legal_clause used vars (length subjects)) clauses
  end.
End Open.
Fixpoint legal (used : list span) (vars : scope) (e : expr) {struct e} : Prop := legal_ legal used vars e.

Definition legal_function (f : function) : Prop :=
  let new := arguments_bound (f_arguments f) in
  valid_name (f_name f) = true /\ fresh [] new /\ f_body f <> [] /\
  legal_body legal (map snd new) new (f_body f).
End Legal.

(** ** Representation *)

(** The values that have no function in them. *)
Inductive represents : value -> term -> Prop :=
| represents_int z : represents (DInt z) (VInt z)
| represents_string t : represents (DString t) (VBinary t)
| represents_constant c : valid_upname c = true ->
    represents (DRecord c []) (VAtom (to_snake_case c))
| represents_record c v vs ts : valid_upname c = true -> Forall2 represents (v :: vs) ts ->
    represents (DRecord c (v :: vs)) (VTuple (VAtom (to_snake_case c) :: ts))
| represents_tuple vs ts : Forall2 represents vs ts -> represents (DTuple vs) (VTuple ts)
| represents_nil : represents DNil VNil
| represents_cons v vs t ts : represents v t -> represents vs ts ->
    represents (DCons v vs) (VCons t ts).
Definition maybe_represents (v : value) (t : term) : Prop := first_order v = true -> represents v t.
Definition represents_past : past -> history -> Prop :=
  Forall2 (fun '(f, vs) '(m, name, ts) =>
    m = foreign_module f /\ name = foreign_name f /\ Forall2 represents vs ts).

(** The map of an error. *)
Definition kind_name (k : error_kind) : text :=
  match k with Todo => str "todo" | Panic => str "panic" | LetAssert => str "let_assert" end.
Definition reports (R : value -> term -> Prop) (file module : text) (f : failure) (t : term) : Prop :=
  let atom a := VAtom (str a) in
  let number n := VInt (Z.of_N n) in
  exists m details,
    R (message f) m /\
    match about f with
    | None => details = []
    | Some (v, (start, end_), (pattern_start, pattern_end)) =>
        exists w, R v w /\
          details = [(atom "value"%string, w); (atom "start"%string, number start); (atom "end"%string, number end_);
                     (atom "pattern_start"%string, number pattern_start);
                     (atom "pattern_end"%string, number pattern_end)]
    end /\
    t = VMap ([(atom "gleam_error"%string, VAtom (kind_name (kind f))); (atom "message"%string, m);
               (atom "file"%string, VBinary file); (atom "module"%string, VBinary module);
               (atom "function"%string, VBinary (in_function f)); (atom "line"%string, number (line f))] ++
              details).

(** Functions of other modules do the same in Gleam and in Erlang. *)
Definition same_world (gleam : past -> foreign -> list value -> option value)
    (erlang : history -> text -> text -> list term -> option term) : Prop :=
  forall h h' f vs ts v, represents_past h h' -> Forall2 represents vs ts -> gleam h f vs = Some v ->
    first_order v = true ->
    exists t, erlang h' (foreign_module f) (foreign_name f) ts = Some t /\ represents v t.
