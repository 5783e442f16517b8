(** How Erlang runs: the values of expressions, written from the Erlang reference manual
    (chapters "Expressions" and "Pattern matching") for the trees that [Erl] reads.

    Simplifications: a binary is the text it encodes; processes, messages and exceptions that are
    caught are left out, and so are the functions of other modules, whose results the [world]
    decides, from everything that was asked of it before.  [None] is an expression that has no
    meaning here (a variable that is not bound, a comparison of functions, ...), or too few steps. *)
From Coq Require Import String NArith ZArith List Bool.
From Verif Require Import Text ErlangSource Erl.
Import ListNotations.
Local Open Scope nat_scope.
Local Open Scope list_scope.

Inductive term :=
| VInt (z : Z)
| VFloat (f : float)
| VBinary (t : text)
| VAtom (a : text)
| VTuple (elements : list term)
| VNil
| VCons (head tail : term)
| VMap (fields : list (term * term))
| VFun (arguments : list erl) (body : list erl) (env : list (text * term))
| VRef (name : text) (arity : N)
| VRemote (module name : text) (arity : N).
Definition env := list (text * term).
(** What was asked of other modules, the last first. *)
Definition history := list (text * text * list term).

Fixpoint lookup {A} (x : text) (l : list (text * A)) : option A :=
  match l with
  | [] => None
  | (y, a) :: l => if text_eqb x y then Some a else lookup x l
  end.

(** ** Comparison *)

Definition is_zero (f : float) : bool :=
  forallb (N.eqb 48) (whole f) && forallb (N.eqb 48) (fraction f).
Definition float_eqb (f g : float) : bool :=
  Bool.eqb (negative f) (negative g) && text_eqb (whole f) (whole g) &&
  text_eqb (fraction f) (fraction g).
(** [a =:= b] and, when [loose], [a == b], which has the two zeros equal. *)
Fixpoint same (loose : bool) (a b : term) : option bool :=
  match a, b with
  | VInt x, VInt y => Some (x =? y)%Z
  | VFloat f, VFloat g => Some (float_eqb f g || loose && is_zero f && is_zero g)
  | VInt _, VFloat _ | VFloat _, VInt _ => if loose then None else Some false
  | VBinary s, VBinary t => Some (text_eqb s t)
  | VAtom s, VAtom t => Some (text_eqb s t)
  | VNil, VNil => Some true
  | VCons h t, VCons h' t' =>
      match same loose h h' with Some true => same loose t t' | r => r end
  | VTuple l, VTuple m =>
      if Nat.eqb (length l) (length m) then
        (fix each l m :=
           match l, m with
           | a :: l, b :: m => match same loose a b with Some true => each l m | r => r end
           | _, _ => Some true
           end) l m
      else Some false
  | VFun _ _ _, _ | VRef _ _, _ | VRemote _ _ _, _ | VMap _, _
  | _, VFun _ _ _ | _, VRef _ _ | _, VRemote _ _ _ | _, VMap _ => None
  | _, _ => Some false
  end.

(** ** Patterns *)

Inductive matched := Matches (bindings : env) | Differs | Unclear.

(** A variable that is bound is compared, another is bound.  The bindings of parts are together. *)
Fixpoint match_ (p : erl) (v : term) (bound : env) : matched :=
  match p with
  | EVar x =>
      if text_eqb x (str "_") then Matches []
      else match lookup x bound with
           | Some w =>
               match same false w v with
               | Some true => Matches [] | Some false => Differs | None => Unclear
               end
           | None => Matches [(x, v)]
           end
  | EAtom a => match v with VAtom b => if text_eqb a b then Matches [] else Differs | _ => Differs end
  | EInt n =>
      match v with VInt z => if (Z.of_N n =? z)%Z then Matches [] else Differs | _ => Differs end
  | EUnary Minus (EInt n) =>
      match v with VInt z => if (- Z.of_N n =? z)%Z then Matches [] else Differs | _ => Differs end
  | EBinary t =>
      match v with VBinary s => if text_eqb t s then Matches [] else Differs | _ => Differs end
  | ENil => match v with VNil => Matches [] | _ => Differs end
  | ECons h t =>
      match v with
      | VCons a b =>
          match match_ h a bound with
          | Matches l =>
              match match_ t b (l ++ bound) with Matches m => Matches (m ++ l) | r => r end
          | r => r
          end
      | _ => Differs
      end
  | ETuple ps =>
      match v with
      | VTuple vs =>
          if Nat.eqb (length ps) (length vs) then
            (fix each ps vs bound :=
               match ps, vs with
               | p :: ps, v :: vs =>
                   match match_ p v bound with
                   | Matches l =>
                       match each ps vs (l ++ bound) with Matches m => Matches (m ++ l) | r => r end
                   | r => r
                   end
               | _, _ => Matches []
               end) ps vs bound
          else Differs
      | _ => Differs
      end
  | EMatch p q =>
      match match_ p v bound with
      | Matches l => match match_ q v (l ++ bound) with Matches m => Matches (m ++ l) | r => r end
      | r => r
      end
  | EBits [(EString s, (None, [(utf8, None)])); (rest, (None, [(binary, None)]))] =>
      if text_eqb utf8 (str "utf8") && text_eqb binary (str "binary") then
        match v with
        | VBinary t =>
            if starts_with s t then match_ rest (VBinary (skipn (length s) t)) bound else Differs
        | _ => Differs
        end
      else Unclear
  | _ => Unclear
  end.

(** ** Operators *)

Definition boolean (b : bool) : term := VAtom (if b then str "true" else str "false").
(** A value, or the reason of an error. *)
Definition operate (s : sym) (a b : term) : option (term + term) :=
  let comparison loose answer := option_map (fun r => inl (boolean (answer r))) (same loose a b) in
  match s with
  | ExactEq => comparison false (fun r => r)
  | ExactNe => comparison false negb
  | LooseEq => comparison true (fun r => r)
  | LooseNe => comparison true negb
  | _ =>
      match a, b with
      | VInt x, VInt y =>
          match s with
          | Plus => Some (inl (VInt (x + y)))
          | Minus => Some (inl (VInt (x - y)))
          | Star => Some (inl (VInt (x * y)))
          | KDiv =>
              Some (if (y =? 0)%Z then inr (VAtom (str "badarith")) else inl (VInt (Z.quot x y)))
          | KRem =>
              Some (if (y =? 0)%Z then inr (VAtom (str "badarith")) else inl (VInt (Z.rem x y)))
          | Less => Some (inl (boolean (x <? y)%Z))
          | LessEq => Some (inl (boolean (x <=? y)%Z))
          | Greater => Some (inl (boolean (y <? x)%Z))
          | GreaterEq => Some (inl (boolean (y <=? x)%Z))
          | _ => None
          end
      | _, _ => None
      end
  end.
Definition negate (s : sym) (a : term) : option term :=
  match s, a with
  | Minus, VInt z => Some (VInt (- z))
  | Plus, VInt z => Some (VInt z)
  | Minus, VFloat f => Some (VFloat (Float (negb (negative f)) (whole f) (fraction f)))
  | Plus, VFloat f => Some (VFloat f)
  | KNot, VAtom a =>
      if text_eqb a (str "true") then Some (boolean false)
      else if text_eqb a (str "false") then Some (boolean true) else None
  | _, _ => None
  end.
(** [erlang:element/2] *)
Definition element (args : list term) : option (term + term) :=
  match args with
  | [VInt i; VTuple l] =>
      if (1 <=? i)%Z then
        match nth_error l (Z.to_nat (i - 1)) with
        | Some v => Some (inl v)
        | None => Some (inr (VAtom (str "badarg")))
        end
      else Some (inr (VAtom (str "badarg")))
  | _ => None
  end.

(** ** Running *)

(** Arguments of functions are new variables, whatever is bound outside. *)
Fixpoint parameters (ps : list erl) (args : list term) : option env :=
  match ps, args with
  | [], [] => Some []
  | EVar x :: ps, v :: args =>
      match parameters ps args with
      | Some l =>
          if text_eqb x (str "_") then Some l
          else match lookup x l with Some _ => None | None => Some ((x, v) :: l) end
      | None => None
      end
  | _, _ => None
  end.
Definition disjoint (l m : env) : bool :=
  forallb (fun p => match lookup (fst p) m with Some _ => false | None => true end) l.
(** The function of a name and a number of arguments. *)
Fixpoint definition (forms : list form) (f : text) (arity : nat) : option (list erl * list erl) :=
  match forms with
  | [] => None
  | FFunction g ps body :: forms =>
      if text_eqb f g && Nat.eqb (length ps) arity then Some (ps, body) else definition forms f arity
  | _ :: forms => definition forms f arity
  end.

(** What came of it: a value, or the reason of an error, and what was asked of other modules. *)
Definition outcome (A : Type) : Type := option (history * (A + term)).
Definition done {A} (h : history) (a : A) : outcome A := Some (h, inl a).
Definition raise {A} (h : history) (reason : term) : outcome A := Some (h, inr reason).
Definition after {A B} (m : outcome A) (f : history -> A -> outcome B) : outcome B :=
  match m with
  | Some (h, inl a) => f h a
  | Some (h, inr reason) => Some (h, inr reason)
  | None => None
  end.
Definition settle {A} (h : history) (r : option (A + term)) : outcome A :=
  match r with Some r => Some (h, r) | None => None end.

Section Run.
Context (forms : list form) (world : history -> text -> text -> list term -> option term).

Definition ask (h : history) (m f : text) (args : list term) : outcome term :=
  match world h m f args with Some v => done ((m, f, args) :: h) v | None => None end.

(** An expression has a value and binds variables.  The arguments of a call do not see each other's
    variables; when two bind the same one, the values would have to match: this has no meaning
    here. *)
Fixpoint eval (n : nat) (bound : env) (h : history) (e : erl) {struct n} : outcome (term * env) :=
  match n with
  | O => None
  | S n =>
      match e with
      | EVar x => match lookup x bound with Some v => done h (v, []) | None => None end
      | EAtom a => done h (VAtom a, [])
      | EInt z => done h (VInt (Z.of_N z), [])
      | EFloat w f => done h (VFloat (Float false w f), [])
      | EBinary t => done h (VBinary t, [])
      | ENil => done h (VNil, [])
      | ETuple l => after (eval_list n bound h l) (fun h r => done h (VTuple (fst r), snd r))
      | ECons a b =>
          after (eval_list n bound h [a; b]) (fun h r =>
            match fst r with [v; w] => done h (VCons v w, snd r) | _ => None end)
      | EMap l =>
          after (eval_list n bound h (map fst l)) (fun h keys =>
            after (eval_list n bound h (map snd l)) (fun h values =>
              if disjoint (snd keys) (snd values)
              then done h (VMap (List.combine (fst keys) (fst values)), snd values ++ snd keys)
              else None))
      | EBits l => after (eval_segments n bound h l) (fun h r => done h (VBinary (fst r), snd r))
      | EBlock l => eval_body n bound h l
      | ECall (EAtom f) args =>
          after (eval_list n bound h args) (fun h r =>
            after (apply n h (VRef f (N.of_nat (length args))) (fst r)) (fun h v => done h (v, snd r)))
      | ECall (ERemote (EAtom m) (EAtom f)) args =>
          after (eval_list n bound h args) (fun h r =>
            after (apply n h (VRemote m f (N.of_nat (length args))) (fst r)) (fun h v =>
              done h (v, snd r)))
      | ECall f args =>
          after (eval_list n bound h (f :: args)) (fun h r =>
            match fst r with
            | f :: vs => after (apply n h f vs) (fun h v => done h (v, snd r))
            | [] => None
            end)
      | EUnary s e =>
          after (eval n bound h e) (fun h r =>
            match negate s (fst r) with Some v => done h (v, snd r) | None => None end)
      | EOp KAndalso a b =>
          after (eval n bound h a) (fun h r =>
            match fst r with
            | VAtom t =>
                if text_eqb t (str "true")
                then after (eval n (snd r ++ bound) h b) (fun h q => done h (fst q, snd q ++ snd r))
                else if text_eqb t (str "false") then done h r else None
            | _ => None
            end)
      | EOp KOrelse a b =>
          after (eval n bound h a) (fun h r =>
            match fst r with
            | VAtom t =>
                if text_eqb t (str "false")
                then after (eval n (snd r ++ bound) h b) (fun h q => done h (fst q, snd q ++ snd r))
                else if text_eqb t (str "true") then done h r else None
            | _ => None
            end)
      | EOp s a b =>
          after (eval_list n bound h [a; b]) (fun h r =>
            match fst r with
            | [v; w] => after (settle h (operate s v w)) (fun h v => done h (v, snd r))
            | _ => None
            end)
      | EMatch p e =>
          after (eval n bound h e) (fun h r =>
            match match_ p (fst r) (snd r ++ bound) with
            | Matches l => done h (fst r, l ++ snd r)
            | Differs => raise h (VTuple [VAtom (str "badmatch"); fst r])
            | Unclear => None
            end)
      | EFunRef None f a => done h (VRef f a, [])
      | EFunRef (Some m) f a => done h (VRemote m f a, [])
      | EFun ps body => done h (VFun ps body bound, [])
      | ECase e clauses =>
          after (eval n bound h e) (fun h r =>
            after (eval_clauses n (snd r ++ bound) h (fst r) clauses) (fun h q =>
              done h (fst q, snd q ++ snd r)))
      | EString _ | ERemote _ _ => None
      end
  end
with eval_list (n : nat) (bound : env) (h : history) (l : list erl) {struct n}
    : outcome (list term * env) :=
  match n with
  | O => None
  | S n =>
      match l with
      | [] => done h ([], [])
      | e :: l =>
          after (eval n bound h e) (fun h r =>
            after (eval_list n bound h l) (fun h q =>
              if disjoint (snd r) (snd q) then done h (fst r :: fst q, snd q ++ snd r) else None))
      end
  end
(** The segments of strings: literals, and values that are binaries. *)
with eval_segments (n : nat) (bound : env) (h : history)
    (l : list (erl * (option erl * list (text * option N)))) {struct n} : outcome (text * env) :=
  match n with
  | O => None
  | S n =>
      match l with
      | [] => done h ([], [])
      | (EString s, (None, [(utf8, None)])) :: l =>
          if text_eqb utf8 (str "utf8")
          then after (eval_segments n bound h l) (fun h q => done h (s ++ fst q, snd q))
          else None
      | (EString _, _) :: _ => None
      | (e, (None, [(binary, None)])) :: l =>
          if text_eqb binary (str "binary") then
            after (eval n bound h e) (fun h r =>
              match fst r with
              | VBinary t =>
                  after (eval_segments n bound h l) (fun h q =>
                    if disjoint (snd r) (snd q) then done h (t ++ fst q, snd q ++ snd r) else None)
              | _ => None
              end)
          else None
      | _ :: _ => None
      end
  end
with eval_body (n : nat) (bound : env) (h : history) (l : list erl) {struct n}
    : outcome (term * env) :=
  match n with
  | O => None
  | S n =>
      match l with
      | [] => None
      | [e] => eval n bound h e
      | e :: l =>
          after (eval n bound h e) (fun h r =>
            after (eval_body n (snd r ++ bound) h l) (fun h q => done h (fst q, snd q ++ snd r)))
      end
  end
(** An error in a guard is the guard failing. *)
with eval_clauses (n : nat) (bound : env) (h : history) (v : term)
    (l : list (erl * (list erl * list erl))) {struct n} : outcome (term * env) :=
  match n with
  | O => None
  | S n =>
      match l with
      | [] => raise h (VTuple [VAtom (str "case_clause"); v])
      | (p, (guards, body)) :: l =>
          match match_ p v bound with
          | Unclear => None
          | Differs => eval_clauses n bound h v l
          | Matches m =>
              let chosen := after (eval_body n (m ++ bound) h body) (fun h q => done h (fst q, snd q ++ m)) in
              match guards with
              | [] => chosen
              | [g] =>
                  match eval n (m ++ bound) h g with
                  | Some (_, inl (VAtom t, _)) =>
                      if text_eqb t (str "true") then chosen else eval_clauses n bound h v l
                  | Some _ => eval_clauses n bound h v l
                  | None => None
                  end
              | _ => None
              end
          end
      end
  end
with apply (n : nat) (h : history) (f : term) (args : list term) {struct n} : outcome term :=
  match n with
  | O => None
  | S n =>
      match f with
      | VFun ps body bound =>
          match parameters ps args with
          | Some l => after (eval_body n (l ++ bound) h body) (fun h r => done h (fst r))
          | None => None
          end
      | VRef f arity =>
          if (arity =? N.of_nat (length args))%N then
            match definition forms f (length args) with
            | Some (ps, body) =>
                match parameters ps args with
                | Some l => after (eval_body n l h body) (fun h r => done h (fst r))
                | None => None
                end
            | None => None
            end
          else None
      | VRemote m f arity =>
          if (arity =? N.of_nat (length args))%N then
            if text_eqb m (str "erlang") && text_eqb f (str "element") then settle h (element args)
            else if text_eqb m (str "erlang") && text_eqb f (str "error") then
              match args with [reason] => raise h reason | _ => None end
            else ask h m f args
          else None
      | _ => None
      end
  end.

(** A run of enough steps. *)
Definition ends {A} (run : nat -> outcome A) (r : history * (A + term)) : Prop :=
  exists n0, forall n, n0 <= n -> run n = Some r.
(** Calling a function of the module. *)
Definition calls_to (h : history) (f : text) (args : list term) (r : history * (term + term)) : Prop :=
  ends (fun n => apply n h (VRef f (N.of_nat (length args))) args) r.
End Run.
