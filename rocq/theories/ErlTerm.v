(** A reader of files of Erlang terms, as [file:consult] reads them: atoms, strings, tuples and lists. A specification of the format that
    .app files are in, by the reference manual of Erlang ("Data types", "Character set and source file encoding"). Numbers, binaries, maps, comments, escapes with
    numbers and strings next to each other are left out: they are refused. *)
From Coq Require Import String NArith List Bool.
From Verif Require Import Text.
Import ListNotations.
Local Open Scope N_scope.

Inductive term := Atom (a : text) | Str (s : text) | Tuple (l : list term) | List (l : list term).

Inductive token := TAtom (a : text) | TStr (s : text) | TOpen (tuple : bool) | TClose (tuple : bool) | TComma | TDot.
Inductive state := Plain | Word (acc : text) | Quoted (q : N) (acc : text) | Escape (q : N) (acc : text) | Dot.

(** Words that are no atoms unless they are quoted. *)
Definition keywords : list text := map str
  ["after"; "and"; "andalso"; "band"; "begin"; "bnot"; "bor"; "bsl"; "bsr"; "bxor"; "case"; "catch"; "cond"; "div"; "else"; "end"; "fun"; "if"; "let"; "maybe";
   "not"; "of"; "or"; "orelse"; "receive"; "rem"; "try"; "when"; "xor"]%string.
Definition small (c : N) : bool := (97 <=? c) && (c <=? 122).
Definition name_char (c : N) : bool := small c || (65 <=? c) && (c <=? 90) || (48 <=? c) && (c <=? 57) || (c =? 95) || (c =? 64).
Definition space (c : N) : bool := (c =? 32) || (c =? 10) || (c =? 9) || (c =? 13).

Definition plain_step (c : N) : option (list token * state) :=
  if space c then Some ([], Plain)
  else if small c then Some ([], Word [c])
  else if (c =? 39) || (c =? 34) then Some ([], Quoted c [])
  else if c =? 123 then Some ([TOpen true], Plain)
  else if c =? 125 then Some ([TClose true], Plain)
  else if c =? 91 then Some ([TOpen false], Plain)
  else if c =? 93 then Some ([TClose false], Plain)
  else if c =? 44 then Some ([TComma], Plain)
  else if c =? 46 then Some ([], Dot)
  else None.
Definition finish (acc : text) : option token :=
  if existsb (text_eqb (rev acc)) keywords then None else Some (TAtom (rev acc)).
Definition escaped (c : N) : option N :=
  if (48 <=? c) && (c <=? 55) || (c =? 120) || (c =? 94) then None
  else Some (match c with 98 => 8 | 100 => 127 | 101 => 27 | 102 => 12 | 110 => 10 | 114 => 13 | 115 => 32 | 116 => 9 | 118 => 11 | c => c end).
Definition step (st : state) (c : N) : option (list token * state) :=
  match st with
  | Plain => plain_step c
  | Word acc =>
      if name_char c then Some ([], Word (c :: acc))
      else match finish acc, plain_step c with Some t, Some (ts, st) => Some (t :: ts, st) | _, _ => None end
  | Quoted q acc =>
      if c =? q then Some ([if q =? 39 then TAtom (rev acc) else TStr (rev acc)], Plain)
      else if c =? 92 then Some ([], Escape q acc) else Some ([], Quoted q (c :: acc))
  | Escape q acc => match escaped c with Some d => Some ([], Quoted q (d :: acc)) | None => None end
  | Dot => if space c then Some ([TDot], Plain) else None
  end.
Fixpoint lex (st : state) (s : text) : option (list token) :=
  match s with
  | [] => match st with
          | Plain => Some []
          | Word acc => match finish acc with Some t => Some [t] | None => None end
          | Dot => Some [TDot]
          | _ => None
          end
  | c :: s => match step st c with
              | Some (ts, st) => match lex st s with Some l => Some (ts ++ l)%list | None => None end
              | None => None
              end
  end.

(** A term may begin ([Opened], [Need]), the brackets may close ([Opened], [Had]), or a comma may come ([Had]). *)
Inductive mode := Opened | Need | Had.
Definition add (v : term) (stack : list (bool * list term)) (top : option term) : list (bool * list term) * option term :=
  match stack with [] => ([], Some v) | (k, items) :: stack => ((k, v :: items) :: stack, top) end.
Definition close (k : bool) (items : list term) : term := if k then Tuple (rev items) else List (rev items).
Fixpoint parse (stack : list (bool * list term)) (m : mode) (top : option term) (out : list term) (ts : list token) : option (list term) :=
  match ts with
  | [] => match stack, top with [], None => Some (rev out) | _, _ => None end
  | t :: ts =>
      match t, m with
      | TAtom a, (Opened | Need) => let '(stack, top) := add (Atom a) stack top in parse stack Had top out ts
      | TStr s, (Opened | Need) => let '(stack, top) := add (Str s) stack top in parse stack Had top out ts
      | TOpen k, (Opened | Need) => parse ((k, []) :: stack) Opened top out ts
      | TClose k, (Opened | Had) =>
          match stack with
          | (k', items) :: stack =>
              if Bool.eqb k k' then let '(stack, top) := add (close k items) stack top in parse stack Had top out ts else None
          | [] => None
          end
      | TComma, Had => match stack with [] => None | _ => parse stack Need top out ts end
      | TDot, Had => match stack, top with [], Some v => parse [] Need None (v :: out) ts | _, _ => None end
      | _, _ => None
      end
  end.
Definition consult (s : text) : option (list term) :=
  match lex Plain s with Some ts => parse [] Need None [] ts | None => None end.
