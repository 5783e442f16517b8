(** Reading Erlang: a scanner and a parser, from the Erlang reference manual (chapters
    "Expressions", "Types and Function Specifications", "Modules") and the grammar of its parser
    ([erl_scan], [erl_parse.yrl] up to OTP 28).

    It knows a part of the language: what it reads, Erlang reads in the same way; what it does
    not know (comments, characters [$c], exponents, [receive], [catch], ...) it does not read. *)
From Coq Require Import String NArith List Bool.
From Verif Require Import Text.
Import ListNotations.
Local Open Scope list_scope.

(** ** Tokens *)
Inductive sym :=
| LParen | RParen | LBracket | RBracket | LBrace | RBrace | LBin | RBin
| Comma | Semicolon | Colon | ColonColon | Arrow | FatArrow | Bar | Hash
| Equals | Plus | Minus | Star | Slash
| Less | LessEq | Greater | GreaterEq | ExactEq | ExactNe | LooseEq | LooseNe | PlusPlus | MinusMinus
| KDiv | KRem | KNot | KAndalso | KOrelse | KCase | KOf | KEnd | KWhen | KBegin | KFun.
Inductive token :=
| TSym (s : sym)
| TKeyword (word : text)
| TVar (name : text)
| TAtom (name : text)
| TInt (n : N)
| TFloat (whole fraction : text)
| TString (characters : text)
| TBinary (characters : text)
| TDot.

(** The reserved words that the parser below has no use for. *)
Definition other_words : list text := map str
  ["after"; "and"; "band"; "bnot"; "bor"; "bsl"; "bsr"; "bxor"; "catch"; "cond"; "if"; "let"; "or";
   "receive"; "try"; "xor"; "maybe"; "else"]%string.
Definition words : list (text * sym) :=
  map (fun p => (str (fst p), snd p))
  [("div", KDiv); ("rem", KRem); ("not", KNot); ("andalso", KAndalso); ("orelse", KOrelse);
   ("case", KCase); ("of", KOf); ("end", KEnd); ("when", KWhen); ("begin", KBegin); ("fun", KFun)]%string.
Fixpoint lookup {A} (name : text) (l : list (text * A)) : option A :=
  match l with
  | [] => None
  | (n, a) :: l => if text_eqb name n then Some a else lookup name l
  end.
Definition word (name : text) : token :=
  match lookup name words with
  | Some s => TSym s
  | None => if existsb (text_eqb name) other_words then TKeyword name else TAtom name
  end.

Definition name_char (c : N) : bool := is_alphanumeric c || (c =? 95)%N || (c =? 64)%N.
Definition white (c : N) : bool := (c <=? 32)%N.

(** Inside quotes.  [\x{...}] is a code point in hexadecimal. *)
Definition hex_digit (c : N) : option N :=
  if is_digit c then Some (c - 48)%N
  else if ((97 <=? c) && (c <=? 102))%N then Some (c - 87)%N
  else if ((65 <=? c) && (c <=? 70))%N then Some (c - 55)%N
  else None.
Definition code_point (n : N) : bool := (n <? 0xD800)%N || ((0xE000 <=? n) && (n <=? 0x10FFFF))%N.
Definition escape_char (c : N) : N :=
  match lookup [c] (map (fun p => (str (fst p), snd p))
    [("b", 8); ("d", 127); ("e", 27); ("f", 12); ("n", 10); ("r", 13); ("s", 32); ("t", 9); ("v", 11)]%N%string)
  with Some n => n | None => c end.
(** Escapes that the scanner does not know: octal, [\^c], and [\x] without braces. *)
Inductive mode := Plain | Escaped | Brace | Hex (seen : bool) (n : N).
Fixpoint quoted (quote : N) (m : mode) (t : text) : option (text * text) :=
  match t with
  | [] => None
  | c :: t =>
      match m with
      | Plain =>
          if (c =? quote)%N then Some ([], t)
          else if (c =? 92)%N then quoted quote Escaped t
          else option_map (fun '(s, r) => (c :: s, r)) (quoted quote Plain t)
      | Escaped =>
          if (c =? 120)%N then quoted quote Brace t
          else if (c =? 94)%N || is_digit c then None
          else option_map (fun '(s, r) => (escape_char c :: s, r)) (quoted quote Plain t)
      | Brace => if (c =? 123)%N then quoted quote (Hex false 0) t else None
      | Hex seen n =>
          if (c =? 125)%N then
            if seen && code_point n
            then option_map (fun '(s, r) => (n :: s, r)) (quoted quote Plain t) else None
          else match hex_digit c with
               | Some d => quoted quote (Hex true (16 * n + d)) t
               | None => None
               end
      end
  end.
(** Three quotes begin another kind of string. *)
Definition triple (t : text) : bool := starts_with [34; 34]%N t.

Definition head_is (p : N -> bool) (t : text) : bool := match t with [] => false | c :: _ => p c end.

(** [symbols]: the longest symbol that the text begins with. *)
Definition symbols : list (text * sym) :=
  map (fun p => (str (fst p), snd p))
  [("=:=", ExactEq); ("=/=", ExactNe);
   ("<<", LBin); (">>", RBin); ("::", ColonColon); ("->", Arrow); ("=>", FatArrow); ("==", LooseEq);
   ("/=", LooseNe); ("=<", LessEq); (">=", GreaterEq); ("++", PlusPlus); ("--", MinusMinus);
   ("(", LParen); (")", RParen); ("[", LBracket); ("]", RBracket); ("{", LBrace); ("}", RBrace);
   (",", Comma); (";", Semicolon); (":", Colon); ("|", Bar); ("#", Hash); ("=", Equals);
   ("+", Plus); ("-", Minus); ("*", Star); ("/", Slash); ("<", Less); (">", Greater)]%string.
(** Symbols that the parser has no use for, and that longer matches would make. *)
Definition other_symbols : list text := map str
  ["||"; ":="; "<-"; "<="; "?"; "!"; "..."; ".."; "<:-"]%string.
Fixpoint first_symbol (l : list (text * sym)) (t : text) : option (token * text) :=
  match l with
  | [] => None
  | (spelling, s) :: l =>
      if starts_with spelling t then Some (TSym s, skipn (length spelling) t) else first_symbol l t
  end.

(** One token, or a character of white space, and the rest. *)
Definition lex1 (t : text) : option (option token * text) :=
  match t with
  | [] => None
  | c :: r =>
      if white c then Some (None, r)
      else if is_digit c then
        let '(digits, r) := span_while is_digit t in
        match r with
        | d :: r' =>
            if (d =? 46)%N && head_is is_digit r' then
              let '(fraction, r'') := span_while is_digit r' in
              if head_is (fun c => name_char c || (c =? 35)%N) r'' then None
              else Some (Some (TFloat digits fraction), r'')
            else if name_char d || (d =? 35)%N then None
            else Some (Some (TInt (decimal_value digits)), r)
        | [] => Some (Some (TInt (decimal_value digits)), r)
        end
      else if is_upper c || (c =? 95)%N then
        let '(name, r) := span_while name_char t in Some (Some (TVar name), r)
      else if is_lower c then
        let '(name, r) := span_while name_char t in Some (Some (word name), r)
      else if (c =? 39)%N then option_map (fun '(s, r) => (Some (TAtom s), r)) (quoted 39 Plain r)
      else if (c =? 34)%N then
        if triple r then None
        else option_map (fun '(s, r) => (Some (TString s), r)) (quoted 34 Plain r)
      else if (c =? 126)%N then
        match r with
        | q :: r =>
            if (q =? 34)%N && negb (triple r)
            then option_map (fun '(s, r) => (Some (TBinary s), r)) (quoted 34 Plain r)
            else None
        | [] => None
        end
      else if (c =? 46)%N && match r with [] => true | d :: _ => white d end then Some (Some TDot, r)
      else if existsb (fun s => starts_with s t) other_symbols then None
      else option_map (fun '(s, r) => (Some s, r)) (first_symbol symbols t)
  end.

Fixpoint scan_fuel (n : nat) (t : text) : option (list token) :=
  match t with
  | [] => Some []
  | _ :: _ =>
      match n with
      | O => None
      | S n =>
          match lex1 t with
          | None => None
          | Some (o, r) =>
              match scan_fuel n r with
              | None => None
              | Some ts => Some (match o with Some tok => tok :: ts | None => ts end)
              end
          end
      end
  end.
Definition scan (t : text) : option (list token) := scan_fuel (length t) t.

(** ** Expressions; patterns are read as expressions *)
Inductive erl :=
| EVar (name : text)
| EAtom (name : text)
| EInt (n : N)
| EFloat (whole fraction : text)
| EString (characters : text)
| EBinary (characters : text)
| ETuple (elements : list erl)
| ENil
| ECons (head tail : erl)
| EBits (segments : list (erl * (option erl * list (text * option N))))
| EMap (fields : list (erl * erl))
| EBlock (body : list erl)
| ERemote (module function : erl)
| ECall (function : erl) (arguments : list erl)
| EUnary (operator : sym) (e : erl)
| EOp (operator : sym) (left right : erl)
| EMatch (pattern e : erl)
| EFunRef (module : option text) (name : text) (arity : N)
| EFun (arguments : list erl) (body : list erl)
| ECase (subject : erl) (clauses : list (erl * (list erl * list erl))).

Inductive assoc := LeftAssoc | RightAssoc | NonAssoc.
(** [=] is 100, right associative. *)
Definition infix_operator (s : sym) : option (nat * assoc) :=
  match s with
  | Equals => Some (100, RightAssoc)
  | KOrelse => Some (150, RightAssoc)
  | KAndalso => Some (160, RightAssoc)
  | Less | LessEq | Greater | GreaterEq | ExactEq | ExactNe | LooseEq | LooseNe => Some (200, NonAssoc)
  | PlusPlus | MinusMinus => Some (300, RightAssoc)
  | Plus | Minus => Some (400, LeftAssoc)
  | Star | Slash | KDiv | KRem => Some (500, LeftAssoc)
  | _ => None
  end.
Definition right_level (p : nat) (a : assoc) : nat :=
  match a with RightAssoc => p | LeftAssoc | NonAssoc => S p end.
Definition prefix_operator (s : sym) : bool := match s with Plus | Minus | KNot => true | _ => false end.
Definition combine (s : sym) (l r : erl) : erl :=
  match s with Equals => EMatch l r | _ => EOp s l r end.

(** After an operator that does not associate, no other operator of its level. *)
Definition chained (p : nat) (a : assoc) (ts : list token) : bool :=
  match a, ts with
  | NonAssoc, TSym s :: _ =>
      match infix_operator s with Some (q, _) => Nat.eqb p q | None => false end
  | _, _ => false
  end.

Local Notation "'let*' p ':=' e 'in' f" := (match e with Some p => f | None => None end)
  (at level 200, p pattern, right associativity).

Fixpoint specifiers (n : nat) (ts : list token) : option (list (text * option N) * list token) :=
  match n with
  | O => None
  | S n =>
      let* (s, ts) :=
        match ts with
        | TAtom a :: TSym Colon :: TInt u :: ts => Some ((a, Some u), ts)
        | TAtom a :: ts => Some ((a, None), ts)
        | _ => None
        end in
      match ts with
      | TSym Minus :: ts => let* (l, ts) := specifiers n ts in Some (s :: l, ts)
      | _ => Some ([s], ts)
      end
  end.

(** [n] bounds the depth of the recursion. *)
Fixpoint expr (n min : nat) (ts : list token) : option (erl * list token) :=
  match n with
  | O => None
  | S n => let* (l, ts) := unary n ts in infix n min l ts
  end
with infix (n min : nat) (l : erl) (ts : list token) : option (erl * list token) :=
  match n with
  | O => None
  | S n =>
      match ts with
      | TSym s :: ts' =>
          match infix_operator s with
          | Some (p, a) =>
              if Nat.leb min p then
                let* (r, ts') := expr n (right_level p a) ts' in
                if chained p a ts' then None else infix n min (combine s l r) ts'
              else Some (l, ts)
          | None => Some (l, ts)
          end
      | _ => Some (l, ts)
      end
  end
(** [prefix_op expr], maps, calls *)
with unary (n : nat) (ts : list token) : option (erl * list token) :=
  match n with
  | O => None
  | S n =>
      match ts with
      | TSym Hash :: TSym LBrace :: TSym RBrace :: ts => Some (EMap [], ts)
      | TSym Hash :: TSym LBrace :: ts =>
          let* (fields, ts) := map_fields n ts in Some (EMap fields, ts)
      | TSym s :: ts' =>
          if prefix_operator s then let* (e, ts) := unary n ts' in Some (EUnary s e, ts)
          else remote n ts
      | _ => remote n ts
      end
  end
with remote (n : nat) (ts : list token) : option (erl * list token) :=
  match n with
  | O => None
  | S n =>
      let* (e, ts) := max n ts in
      let* (e, ts) :=
        match ts with
        | TSym Colon :: ts => let* (f, ts) := max n ts in Some (ERemote e f, ts)
        | _ => Some (e, ts)
        end in
      match ts with
      | TSym LParen :: ts => let* (arguments, ts) := arguments n ts in Some (ECall e arguments, ts)
      | _ => Some (e, ts)
      end
  end
(** What follows the opening parenthesis, with the closing one. *)
with arguments (n : nat) (ts : list token) : option (list erl * list token) :=
  match n with
  | O => None
  | S n =>
      match ts with
      | TSym RParen :: ts => Some ([], ts)
      | _ =>
          let* (l, ts) := exprs n ts in
          match ts with TSym RParen :: ts => Some (l, ts) | _ => None end
      end
  end
(** One or more expressions separated by commas. *)
with exprs (n : nat) (ts : list token) : option (list erl * list token) :=
  match n with
  | O => None
  | S n =>
      let* (e, ts) := expr n 0 ts in
      match ts with
      | TSym Comma :: ts => let* (l, ts) := exprs n ts in Some (e :: l, ts)
      | _ => Some ([e], ts)
      end
  end
with map_fields (n : nat) (ts : list token) : option (list (erl * erl) * list token) :=
  match n with
  | O => None
  | S n =>
      let* (k, ts) := expr n 0 ts in
      match ts with
      | TSym FatArrow :: ts =>
          let* (v, ts) := expr n 0 ts in
          match ts with
          | TSym Comma :: ts => let* (l, ts) := map_fields n ts in Some ((k, v) :: l, ts)
          | TSym RBrace :: ts => Some ([(k, v)], ts)
          | _ => None
          end
      | _ => None
      end
  end
(** [expr_max] *)
with max (n : nat) (ts : list token) : option (erl * list token) :=
  match n with
  | O => None
  | S n =>
      match ts with
      | TVar x :: ts => Some (EVar x, ts)
      | TAtom a :: ts => Some (EAtom a, ts)
      | TInt i :: ts => Some (EInt i, ts)
      | TFloat w f :: ts => Some (EFloat w f, ts)
      | TString s :: ts => Some (EString s, ts)
      | TBinary s :: ts => Some (EBinary s, ts)
      | TSym LParen :: ts =>
          let* (e, ts) := expr n 0 ts in
          match ts with TSym RParen :: ts => Some (e, ts) | _ => None end
      | TSym LBrace :: TSym RBrace :: ts => Some (ETuple [], ts)
      | TSym LBrace :: ts =>
          let* (l, ts) := exprs n ts in
          match ts with TSym RBrace :: ts => Some (ETuple l, ts) | _ => None end
      | TSym LBracket :: TSym RBracket :: ts => Some (ENil, ts)
      | TSym LBracket :: ts =>
          let* (h, ts) := expr n 0 ts in
          let* (t, ts) := tail n ts in Some (ECons h t, ts)
      | TSym LBin :: TSym RBin :: ts => Some (EBits [], ts)
      | TSym LBin :: ts => let* (l, ts) := segments n ts in Some (EBits l, ts)
      | TSym KBegin :: ts =>
          let* (l, ts) := exprs n ts in
          match ts with TSym KEnd :: ts => Some (EBlock l, ts) | _ => None end
      | TSym KFun :: TAtom m :: TSym Colon :: TAtom f :: TSym Slash :: TInt a :: ts =>
          Some (EFunRef (Some m) f a, ts)
      | TSym KFun :: TAtom f :: TSym Slash :: TInt a :: ts => Some (EFunRef None f a, ts)
      | TSym KFun :: TSym LParen :: ts =>
          let* (a, ts) := arguments n ts in
          match ts with
          | TSym Arrow :: ts =>
              let* (l, ts) := exprs n ts in
              match ts with TSym KEnd :: ts => Some (EFun a l, ts) | _ => None end
          | _ => None
          end
      | TSym KCase :: ts =>
          let* (e, ts) := expr n 0 ts in
          match ts with
          | TSym KOf :: ts => let* (l, ts) := clauses n ts in Some (ECase e l, ts)
          | _ => None
          end
      | _ => None
      end
  end
(** What follows an element of a list, with the closing bracket. *)
with tail (n : nat) (ts : list token) : option (erl * list token) :=
  match n with
  | O => None
  | S n =>
      match ts with
      | TSym RBracket :: ts => Some (ENil, ts)
      | TSym Bar :: ts =>
          let* (e, ts) := expr n 0 ts in
          match ts with TSym RBracket :: ts => Some (e, ts) | _ => None end
      | TSym Comma :: ts =>
          let* (h, ts) := expr n 0 ts in
          let* (t, ts) := tail n ts in Some (ECons h t, ts)
      | _ => None
      end
  end
(** Segments of a binary, with the closing [>>]. *)
with segments (n : nat) (ts : list token)
  : option (list (erl * (option erl * list (text * option N))) * list token) :=
  match n with
  | O => None
  | S n =>
      let* (v, ts) :=
        match ts with
        | TSym s :: ts' =>
            if prefix_operator s then let* (e, ts) := max n ts' in Some (EUnary s e, ts) else max n ts
        | _ => max n ts
        end in
      let* (size, ts) :=
        match ts with
        | TSym Colon :: ts => let* (e, ts) := max n ts in Some (Some e, ts)
        | _ => Some (None, ts)
        end in
      let* (specs, ts) :=
        match ts with TSym Slash :: ts => specifiers n ts | _ => Some ([], ts) end in
      match ts with
      | TSym Comma :: ts => let* (l, ts) := segments n ts in Some ((v, (size, specs)) :: l, ts)
      | TSym RBin :: ts => Some ([(v, (size, specs))], ts)
      | _ => None
      end
  end
(** Clauses of a [case], with the closing [end]. *)
with clauses (n : nat) (ts : list token)
  : option (list (erl * (list erl * list erl)) * list token) :=
  match n with
  | O => None
  | S n =>
      let* (p, ts) := expr n 0 ts in
      let* (g, ts) :=
        match ts with TSym KWhen :: ts => exprs n ts | _ => Some ([], ts) end in
      match ts with
      | TSym Arrow :: ts =>
          let* (l, ts) := exprs n ts in
          match ts with
          | TSym Semicolon :: ts => let* (cs, ts) := clauses n ts in Some ((p, (g, l)) :: cs, ts)
          | TSym KEnd :: ts => Some ([(p, (g, l))], ts)
          | _ => None
          end
      | _ => None
      end
  end.

(** ** Types *)
Inductive ty :=
| TyVar (name : text)
| TyAtom (name : text)
| TyNamed (module : option text) (name : text) (arguments : list ty)
| TyTuple (elements : list ty)
| TyFun (arguments : list ty) (return_ : ty)
| TyUnion (alternatives : list ty).

(** A union has at least two alternatives; unions are not nested. *)
Definition union (l : list ty) : ty := match l with [t] => t | l => TyUnion l end.

Fixpoint top_type (n : nat) (ts : list token) : option (ty * list token) :=
  match n with
  | O => None
  | S n => let* (l, ts) := alternatives n ts in Some (union l, ts)
  end
with alternatives (n : nat) (ts : list token) : option (list ty * list token) :=
  match n with
  | O => None
  | S n =>
      let* (t, ts) := type_ n ts in
      match ts with
      | TSym Bar :: ts => let* (l, ts) := alternatives n ts in Some (t :: l, ts)
      | _ => Some ([t], ts)
      end
  end
with type_ (n : nat) (ts : list token) : option (ty * list token) :=
  match n with
  | O => None
  | S n =>
      match ts with
      | TVar x :: ts => Some (TyVar x, ts)
      | TAtom m :: TSym Colon :: TAtom a :: TSym LParen :: ts =>
          let* (l, ts) := type_arguments n ts in Some (TyNamed (Some m) a l, ts)
      | TAtom a :: TSym LParen :: ts =>
          let* (l, ts) := type_arguments n ts in Some (TyNamed None a l, ts)
      | TAtom a :: ts => Some (TyAtom a, ts)
      | TSym LBrace :: TSym RBrace :: ts => Some (TyTuple [], ts)
      | TSym LBrace :: ts =>
          let* (l, ts) := types n ts in
          match ts with TSym RBrace :: ts => Some (TyTuple l, ts) | _ => None end
      | TSym KFun :: TSym LParen :: TSym LParen :: ts =>
          let* (l, ts) := type_arguments n ts in
          match ts with
          | TSym Arrow :: ts =>
              let* (t, ts) := top_type n ts in
              match ts with TSym RParen :: ts => Some (TyFun l t, ts) | _ => None end
          | _ => None
          end
      | _ => None
      end
  end
(** What follows the opening parenthesis, with the closing one. *)
with type_arguments (n : nat) (ts : list token) : option (list ty * list token) :=
  match n with
  | O => None
  | S n =>
      match ts with
      | TSym RParen :: ts => Some ([], ts)
      | _ =>
          let* (l, ts) := types n ts in
          match ts with TSym RParen :: ts => Some (l, ts) | _ => None end
      end
  end
with types (n : nat) (ts : list token) : option (list ty * list token) :=
  match n with
  | O => None
  | S n =>
      let* (t, ts) := top_type n ts in
      match ts with
      | TSym Comma :: ts => let* (l, ts) := types n ts in Some (t :: l, ts)
      | _ => Some ([t], ts)
      end
  end.

(** ** Forms *)
Inductive form :=
| FAttribute (name : text) (arguments : list erl)
| FSpec (name : text) (arguments : list ty) (return_ : ty)
| FType (opaque : bool) (name : text) (variables : list erl) (t : ty)
| FRecord (name : text) (fields : list (text * ty))
| FFunction (name : text) (arguments : list erl) (body : list erl).

(** Fields of a record with their types, with the closing brace. *)
Fixpoint record_fields (n : nat) (ts : list token) : option (list (text * ty) * list token) :=
  match n with
  | O => None
  | S n =>
      match ts with
      | TSym RBrace :: ts => Some ([], ts)
      | TAtom f :: TSym ColonColon :: ts =>
          let* (t, ts) := top_type n ts in
          match ts with
          | TSym Comma :: TAtom g :: ts' =>
              let* (l, ts) := record_fields n (TAtom g :: ts') in Some ((f, t) :: l, ts)
          | TSym RBrace :: ts => Some ([(f, t)], ts)
          | _ => None
          end
      | _ => None
      end
  end.

Definition form_ (n : nat) (ts : list token) : option (form * list token) :=
  match ts with
  | TSym Minus :: TAtom name :: ts =>
      if text_eqb name (str "spec") then
        match ts with
        | TAtom f :: TSym LParen :: ts =>
            let* (l, ts) := type_arguments n ts in
            match ts with
            | TSym Arrow :: ts => let* (t, ts) := top_type n ts in Some (FSpec f l t, ts)
            | _ => None
            end
        | _ => None
        end
      else if text_eqb name (str "type") || text_eqb name (str "opaque") then
        match ts with
        | TAtom f :: TSym LParen :: ts =>
            let* (l, ts) := arguments n ts in
            match ts with
            | TSym ColonColon :: ts =>
                let* (t, ts) := top_type n ts in
                Some (FType (text_eqb name (str "opaque")) f l t, ts)
            | _ => None
            end
        | _ => None
        end
      else if text_eqb name (str "record") then
        match ts with
        | TSym LParen :: TAtom f :: TSym Comma :: TSym LBrace :: ts =>
            let* (l, ts) := record_fields n ts in
            match ts with TSym RParen :: ts => Some (FRecord f l, ts) | _ => None end
        | _ => None
        end
      else
        match ts with
        | TSym LParen :: ts => let* (l, ts) := arguments n ts in Some (FAttribute name l, ts)
        | _ => None
        end
  | TAtom f :: TSym LParen :: ts =>
      let* (l, ts) := arguments n ts in
      match ts with
      | TSym Arrow :: ts => let* (b, ts) := exprs n ts in Some (FFunction f l b, ts)
      | _ => None
      end
  | _ => None
  end.

Fixpoint forms (n : nat) (ts : list token) : option (list form) :=
  match ts with
  | [] => Some []
  | _ :: _ =>
      match n with
      | O => None
      | S n =>
          let* (f, ts) := form_ n ts in
          match ts with
          | TDot :: ts => let* l := forms n ts in Some (f :: l)
          | _ => None
          end
      end
  end.

(** Erlang reads [t] as the forms [m], whatever the bound on the depth, if it is large enough. *)
Definition reads (t : text) (m : list form) : Prop :=
  exists ts, scan t = Some ts /\
    exists n0, forall n, n0 <= n -> forms n ts = Some m.

Lemma reads_once t m m' : reads t m -> reads t m' -> m = m'.
Proof.
  intros (ts & S & n & R) (ts' & S' & n' & R').
  rewrite S in S'. injection S' as <-.
  specialize (R (n + n') (PeanoNat.Nat.le_add_r _ _)).
  specialize (R' (n + n')). rewrite PeanoNat.Nat.add_comm in R' at 1.
  specialize (R' (PeanoNat.Nat.le_add_r _ _)). congruence.
Qed.
