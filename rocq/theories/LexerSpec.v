(** The lexical grammar of Gleam, and where tokens are in the source.

    Written without the functions of [Lexer]: only its types of tokens and errors are used. *)
From Coq Require Import String NArith ZArith Bool List.
From Verif Require Import Text Strings StringsSpec SrcSpan Lexer.
Import ListNotations.
Open Scope N_scope.

(** ** Pieces of text

    A text is a sequence of gaps and tokens; a token has the text it is written with. *)
Inductive piece :=
| Gap (written : text)
| Tok (t : token) (written : text).
Definition written (p : piece) : text := match p with Gap w => w | Tok _ w => w end.
Definition writing (ps : list piece) : text := flat_map written ps.

(** ** What follows *)
Definition followed (p : N -> Prop) (rest : text) : Prop :=
  match rest with c :: _ => p c | [] => False end.
Definition followed_by (c : string) (rest : text) : Prop := exists r, rest = (str c ++ r)%list.

Definition between (a c b : N) : Prop := a <= c /\ c <= b.
Definition a_digit (c : N) : Prop := between 48 c 57.
Definition a_lower (c : N) : Prop := between 97 c 122.
Definition an_upper (c : N) : Prop := between 65 c 90.
Definition a_word_character (c : N) : Prop := a_digit c \/ a_lower c \/ an_upper c \/ c = 95.

(** ** Words *)
Definition keyword_text (k : keyword) : text :=
  match k with
  | As => str "as" | Assert => str "assert" | Auto => str "auto" | Case => str "case"
  | Const => str "const" | Delegate => str "delegate" | Derive => str "derive"
  | Echo => str "echo" | Else => str "else" | Fn => str "fn" | If => str "if"
  | Implement => str "implement" | Import => str "import" | Let => str "let"
  | Macro => str "macro" | Opaque => str "opaque" | Panic_ => str "panic" | Pub => str "pub"
  | Test => str "test" | Todo => str "todo" | Type_ => str "type" | Use => str "use"
  end.

(** A word is everything up to a character that no word has. *)
Inductive word : token -> text -> Prop :=
| word_keyword k : word (Keyword k) (keyword_text k)
| word_name c w :
    a_lower c -> Forall a_word_character w -> (forall k, keyword_text k <> c :: w) ->
    word (Name (c :: w)) (c :: w)
| word_discard w :
    Forall a_word_character w -> word (DiscardName (95 :: w)) (95 :: w).

(** ** Numbers *)

(** The digits of a radix, and the value of one. *)
Definition digit_in (radix d c : N) : Prop :=
  d < radix
  /\ ((a_digit c /\ c = 48 + d) \/ (between 65 c 70 /\ c = 55 + d) \/ (between 97 c 102 /\ c = 87 + d)).
Definition a_digit_of (radix c : N) : Prop := exists d, digit_in radix d c.

(** Digits with underscores, each in front of a digit.  [v] is the value with [acc] in
    front. *)
Inductive digits (radix : N) : N -> text -> N -> Prop :=
| digits_nil acc : digits radix acc [] acc
| digits_digit acc d c s v :
    digit_in radix d c -> digits radix (radix * acc + d) s v -> digits radix acc (c :: s) v
| digits_underscore acc d c s v :
    digit_in radix d c -> digits radix (radix * acc + d) s v -> digits radix acc (95 :: c :: s) v.
(** Nothing that follows could belong to the digits. *)
Definition digits_end (radix : N) (rest : text) : Prop :=
  ~ followed (a_digit_of radix) rest
  /\ ~ (exists c r, rest = 95 :: c :: r /\ a_digit_of radix c).

Inductive sign : text -> Z -> Prop :=
| sign_plus : sign [] 1
| sign_minus : sign (str "-") (-1).

(** The letters after a zero that announce a radix. *)
Inductive radix_letter : N -> N -> text -> Prop :=
| letter_x c : c = 120 \/ c = 88 -> radix_letter 16 c (str "0x")
| letter_o c : c = 111 \/ c = 79 -> radix_letter 8 c (str "0o")
| letter_b c : c = 98 \/ c = 66 -> radix_letter 2 c (str "0b").

(** The text and value of an integer literal in decimal digits. *)
Definition decimal_int (s : text) (v : N) : Prop := digits 10 0 s v /\ followed a_digit s.

(** [number radix t w rest]: [w] is a number whose last digits are of the radix, and [rest]
    does not make it another kind of number. *)
Inductive number : N -> token -> text -> text -> Prop :=
| number_decimal m sg s v rest :
    sign m sg -> decimal_int s v -> ~ followed_by "." rest ->
    ~ (s = str "0" /\ followed (fun c => exists r p, radix_letter r c p) rest) ->
    number 10 (Int (m ++ s) (sg * Z.of_N v)) (m ++ s)%list rest
| number_radix m sg radix letter prefix s v rest :
    sign m sg -> radix_letter radix letter prefix ->
    digits radix 0 s v -> s <> [] -> (radix < 16 -> ~ followed (a_digit_of 16) rest) ->
    number radix (Int (m ++ prefix ++ s) (sg * Z.of_N v)) (m ++ str "0" ++ [letter] ++ s)%list rest
| number_float m sg s v f w rest :
    sign m sg -> decimal_int s v -> digits 10 0 f w -> ~ followed_by "e" rest ->
    number 10 (Float (m ++ s ++ str "." ++ f)) (m ++ s ++ str "." ++ f)%list rest
| number_exponent m sg s v f w n sg' e x rest :
    sign m sg -> decimal_int s v -> digits 10 0 f w -> sign n sg' ->
    digits 10 0 e x -> e <> [] ->
    number 10 (Float (m ++ s ++ str "." ++ f ++ str "e" ++ n ++ e))
           (m ++ s ++ str "." ++ f ++ str "e" ++ n ++ e)%list rest.
(** It ends where no digit follows, and may not end with an underscore. *)
Definition a_number (t : token) (w rest : text) : Prop :=
  exists radix, number radix t w rest /\ digits_end radix rest /\ ~ followed_by "_" rest.

(** A minus sign and a digit. *)
Definition negative_ahead (rest : text) : Prop := exists d r, rest = 45 :: d :: r /\ a_digit d.

(** ** Symbols *)
Definition symbol_text (s : symbol) : text :=
  match s with
  | LeftParen => str "(" | RightParen => str ")" | LeftSquare => str "[" | RightSquare => str "]"
  | LeftBrace => str "{" | RightBrace => str "}"
  | Plus => str "+" | Minus => str "-" | Star => str "*" | Slash => str "/"
  | Less => str "<" | Greater => str ">" | LessEqual => str "<=" | GreaterEqual => str ">="
  | Percent => str "%"
  | PlusDot => str "+." | MinusDot => str "-." | StarDot => str "*." | SlashDot => str "/."
  | LessDot => str "<." | GreaterDot => str ">." | LessEqualDot => str "<=." | GreaterEqualDot => str ">=."
  | Concatenate => str "<>"
  | Colon => str ":" | Comma => str "," | Hash => str "#" | Bang => str "!"
  | Equal => str "=" | EqualEqual => str "==" | NotEqual => str "!="
  | Vbar => str "|" | VbarVbar => str "||" | AmperAmper => str "&&"
  | LtLt => str "<<" | GtGt => str ">>" | Pipe => str "|>" | Dot => str "."
  | RArrow => str "->" | LArrow => str "<-" | DotDot => str ".." | At => str "@"
  end.

(** Operators of other languages, which are errors, and the start of a comment. *)
Definition procedural : list text :=
  [str "+="; str "++"; str "*="; str "/="; str "%="; str "-="].
Definition reserved : list text := str "//" :: procedural.

(** The longest symbol counts: no longer symbol, nothing reserved. *)
Definition longest (s : symbol) (rest : text) : Prop :=
  (forall s' r, (symbol_text s ++ rest)%list = (symbol_text s' ++ r)%list ->
     (length (symbol_text s') <= length (symbol_text s))%nat)
  /\ (forall u r, In u reserved -> (symbol_text s ++ rest)%list <> (u ++ r)%list).

(** Seven of one of the characters [<], [>] and [=] are the mark of a merge conflict. *)
Definition merge_conflict (c : N) (s : text) : Prop :=
  (c = 60 \/ c = 61 \/ c = 62) /\ exists r, s = (repeat c 7 ++ r)%list.

(** The tokens of a run of [=]. *)
Inductive equals : list piece -> nat -> Prop :=
| equals_1 : equals [Tok (Symbol Equal) (str "=")] 1
| equals_2 : equals [Tok (Symbol EqualEqual) (str "==")] 2
| equals_4 : equals [Tok (Symbol EqualEqual) (str "=="); Tok (Symbol EqualEqual) (str "==")] 4
| equals_5 :
    equals [Tok (Symbol EqualEqual) (str "=="); Tok (Symbol EqualEqual) (str "==");
            Tok (Symbol Equal) (str "=")] 5
| equals_6 :
    equals [Tok (Symbol EqualEqual) (str "=="); Tok (Symbol EqualEqual) (str "==");
            Tok (Symbol EqualEqual) (str "==")] 6.

(** ** Strings *)

(** The number written with hexadecimal digits. *)
Inductive hexadecimal : N -> text -> N -> Prop :=
| hexadecimal_nil acc : hexadecimal acc [] acc
| hexadecimal_digit acc d c s v :
    digit_in 16 d c -> hexadecimal (16 * acc + d) s v -> hexadecimal acc (c :: s) v.

(** What may be between the quotes. *)
Inductive escape : text -> Prop :=
| escape_simple c : In c (34 :: 92 :: str "fnrt") -> escape [92; c]
| escape_unicode h v :
    hexadecimal 0 h v -> (1 <= length h <= 6)%nat -> scalar_value v ->
    escape (str "\u{" ++ h ++ str "}").
Inductive string_body : text -> Prop :=
| body_nil : string_body []
| body_plain c s : c <> 34 -> c <> 92 -> string_body s -> string_body (c :: s)
| body_escape e s : escape e -> string_body s -> string_body (e ++ s).

(** ** Comments *)
Definition a_line (content rest : text) : Prop :=
  ~ In 10 content /\ (rest = [] \/ exists r, rest = 10 :: r).

(** ** The grammar: [item ps rest]: the pieces [ps], when [rest] follows *)
Definition blank (c : N) : Prop := c = 32 \/ c = 9 \/ c = 12.

Inductive item : list piece -> text -> Prop :=
| item_blank c rest : blank c -> item [Gap [c]] rest
| item_newline rest : item [Tok NewLine [10]] rest
| item_upname c w rest :
    an_upper c -> Forall a_word_character w -> ~ followed a_word_character rest ->
    item [Tok (UpName (c :: w)) (c :: w)] rest
| item_word t w rest :
    word t w -> ~ followed a_word_character rest -> ~ negative_ahead rest -> item [Tok t w] rest
| item_word_minus t w rest :
    word t w -> followed a_digit rest -> item [Tok t w; Tok (Symbol Minus) (str "-")] rest
| item_number t w rest :
    a_number t w rest -> ~ negative_ahead rest -> item [Tok t w] rest
| item_number_minus t w rest :
    a_number t w (45 :: rest) -> followed a_digit rest ->
    item [Tok t w; Tok (Symbol Minus) (str "-")] rest
| item_symbol s rest :
    s <> Equal -> s <> EqualEqual -> longest s rest ->
    (s = Minus \/ s = Dot -> ~ followed a_digit rest) ->
    (forall c, ~ merge_conflict c (symbol_text s ++ rest)) ->
    item [Tok (Symbol s) (symbol_text s)] rest
| item_equals ps n rest :
    equals ps n -> ~ followed_by "=" rest -> item ps rest
| item_dot_number s v rest :
    decimal_int s v -> digits_end 10 rest ->
    item [Tok (Symbol Dot) (str "."); Tok (Int s (Z.of_N v)) s] rest
| item_string s rest :
    string_body s -> item [Tok (StringLiteral s) (34 :: s ++ [34])] rest
| item_comment s rest :
    a_line s rest -> ~ followed_by "/" s -> item [Gap (str "//"); Tok CommentNormal s] rest
| item_doc_comment s rest :
    a_line s rest -> ~ followed_by "/" s -> item [Gap (str "///"); Tok (CommentDoc s) s] rest
| item_module_comment s rest :
    a_line s rest -> item [Gap (str "////"); Tok CommentModule s] rest.

(** A sequence of items. *)
Inductive items : list piece -> text -> Prop :=
| items_nil rest : items [] rest
| items_cons ps qs rest :
    item ps (writing qs ++ rest) -> items qs rest -> items (ps ++ qs) rest.

(** ** Errors: [bad e before marked s]: the text [s] cannot be read because of [e], found
    at [marked] behind [before] *)
Definition known_start (c : N) : Prop :=
  a_word_character c \/ blank c \/ In c (10 :: 34 :: str "@(){}[]:,#=+*/%|&-!<>.").

(** The characters that look like others (Unicode names in lexer.rs 500-876). *)
Definition look_alikes : list N :=
  [160; 1072; 1077; 1086; 1088; 7477; 8203; 8211; 8212; 8216; 8217; 8218; 8220; 8221; 8725; 8727;
   12289; 12290; 65288; 65289; 65292; 65294; 65306; 65308; 65310; 65312; 65339; 65341; 65342; 65372].

Inductive bad : error_type -> text -> text -> text -> Prop :=
| bad_look_alike c r :
    In c look_alikes -> bad (VisuallySimilarInvalidCharacter c) [] [] (c :: r)
| bad_character c r :
    ~ known_start c -> ~ In c look_alikes -> bad (UnrecognizedToken c) [] [] (c :: r)
| bad_ampersand r :
    ~ followed_by "&" r -> bad (UnrecognizedToken 38) [] [] (38 :: r)
| bad_procedural u r :
    In u procedural -> bad UnsupportedProceduralOperator [] u (u ++ r)
| bad_merge_conflict c r s :
    merge_conflict c s -> s = (repeat c 7 ++ r)%list -> bad MergeConflictIndicator [] (repeat c 7) s
| bad_triple_equal r :
    ~ followed_by "=" r -> bad InvalidTripleEqual [] (str "===") (str "===" ++ r)
(* numbers *)
| bad_trailing_underscore radix t w r :
    number radix t w r -> digits_end radix r -> followed_by "_" r ->
    bad NumTrailingUnderscore w [] (w ++ r)
| bad_no_digits m sg radix letter prefix r :
    sign m sg -> radix_letter radix letter prefix -> digits_end radix r ->
    bad RadixIntNoValue (m ++ str "0") [] (m ++ str "0" ++ [letter] ++ r)
| bad_digit m sg radix letter prefix s v r :
    sign m sg -> radix_letter radix letter prefix -> radix < 16 ->
    digits radix 0 s v -> s <> [] -> digits_end radix r -> followed (a_digit_of 16) r ->
    bad DigitOutOfRadix (m ++ str "0" ++ [letter] ++ s) [] (m ++ str "0" ++ [letter] ++ s ++ r)
| bad_exponent m sg s v f w n sg' r :
    sign m sg -> decimal_int s v -> digits 10 0 f w -> sign n sg' -> digits_end 10 r ->
    (n = [] -> ~ followed_by "-" r) ->
    bad MissingExponent [] (m ++ s ++ str "." ++ f ++ str "e" ++ n)
        (m ++ s ++ str "." ++ f ++ str "e" ++ n ++ r)
(* strings *)
| bad_no_end s :
    string_body s -> bad UnexpectedStringEnd [] [] (34 :: s)
| bad_escape s c r :
    string_body s -> ~ In c (34 :: 92 :: str "fnrtu") ->
    bad BadStringEscape (34 :: s) [92] (34 :: s ++ [92; c] ++ r)
| bad_escape_at_end s :
    string_body s -> bad BadStringEscape (34 :: s) [] (34 :: s ++ [92])
| bad_no_brace s r :
    string_body s -> ~ followed_by "{" r ->
    bad (InvalidUnicodeEscape MissingOpeningBrace)
        (34 :: s ++ [92]) (str "u") (34 :: s ++ str "\u" ++ r)
| bad_hex_digit s h c r :
    string_body s -> Forall (a_digit_of 16) h -> ~ a_digit_of 16 c -> c <> 125 ->
    bad (InvalidUnicodeEscape ExpectedHexDigitOrCloseBrace)
        (34 :: s ++ str "\u{" ++ h) [c] (34 :: s ++ str "\u{" ++ h ++ c :: r)
| bad_hex_end s h u c :
    string_body s -> Forall (a_digit_of 16) h -> (str "{" ++ h = u ++ [c])%list ->
    bad (InvalidUnicodeEscape ExpectedHexDigitOrCloseBrace)
        (34 :: s ++ str "\u" ++ u) [c] (34 :: s ++ str "\u{" ++ h)
| bad_hex_length s h r :
    string_body s -> Forall (a_digit_of 16) h -> (length h = 0 \/ length h > 6)%nat ->
    bad (InvalidUnicodeEscape InvalidNumberOfHexDigits)
        (34 :: s) (str "\u{" ++ h ++ str "}") (34 :: s ++ str "\u{" ++ h ++ str "}" ++ r)
| bad_codepoint s h v r :
    string_body s -> hexadecimal 0 h v -> (1 <= length h <= 6)%nat -> ~ scalar_value v ->
    bad (InvalidUnicodeEscape InvalidCodepoint)
        (34 :: s) (str "\u{" ++ h ++ str "}") (34 :: s ++ str "\u{" ++ h ++ str "}" ++ r).

(** ** Where things are

    The characters of a source with the bytes they start at: every end of line is one
    newline, a byte order mark in front is skipped. *)
Fixpoint characters (i : N) (s : text) : list (N * N) :=
  match s with
  | [] => []
  | c :: s' =>
      if c =? 13 then
        match s' with
        | d :: s'' =>
            if d =? 10 then (i, 10) :: characters (i + 2) s'' else (i, 10) :: characters (i + 1) s'
        | [] => [(i, 10)]
        end
      else (i, c) :: characters (i + N.of_nat (len_utf8 c)) s'
  end.
Definition source_characters (s : text) : list (N * N) :=
  match s with
  | c :: s' => if c =? 0xFEFF then characters 3 s' else characters 0 s
  | [] => []
  end.
Definition source_text (s : text) : text := map snd (source_characters s).

(** The byte where the [k]-th character starts.  Behind the last character it is the byte
    after the first byte of the last character, which is the end of the source only when that
    character is one byte long. *)
Definition byte_of (cs : list (N * N)) (k : nat) : N :=
  match nth_error cs k with
  | Some (i, _) => i
  | None => fst (last cs (0, 0)) + 1
  end.

(** The spans of the tokens among pieces, when the first piece starts at character [k]. *)
Fixpoint spans (cs : list (N * N)) (k : nat) (ps : list piece) : list (N * token * N) :=
  match ps with
  | [] => []
  | Gap w :: ps => spans cs (k + length w) ps
  | Tok t w :: ps =>
      (byte_of cs k, t, byte_of cs (k + length w)) :: spans cs (k + length w) ps
  end.

(** The end of an error is one byte behind its start when a wrong digit is marked. *)
Definition located (cs : list (N * N)) (k : nat) (kind : error_type) (before marked : text) : N * N :=
  let start := byte_of cs (k + length before) in
  (start,
   match kind with
   | InvalidUnicodeEscape ExpectedHexDigitOrCloseBrace => start + 1
   | _ => byte_of cs (k + length before + length marked)
   end).

(** ** Tokens in the source *)

(** The character [c] starts at byte [i] of [s]. *)
Definition stands_at (s : text) (i c : N) : Prop :=
  exists a b, s = (a ++ c :: b)%list /\ i = N.of_nat (byte_length a).
(** Byte [i] belongs to one of the spans. *)
Definition covered (ts : list (N * token * N)) (i : N) : Prop :=
  exists start t end_, In (start, t, end_) ts /\ start <= i /\ i < end_.
(** The slashes in front of a comment. *)
Definition slashes (t : token) : N :=
  match t with CommentNormal => 2 | CommentDoc _ => 3 | CommentModule => 4 | _ => 0 end.

(** The spans [ts] follow each other between [low] and [high]. *)
Fixpoint in_order (low high : N) (ts : list (N * token * N)) : Prop :=
  match ts with
  | [] => low <= high
  | (start, t, end_) :: ts =>
      low <= start /\ start <= end_ /\ (slashes t = 0 -> start < end_) /\ in_order end_ high ts
  end.

(** The end of what has been read: the end of the source or, when lexing failed, the place
    where text starts that cannot be read; the error is found there or later. *)
Definition read_up_to (s : text) (o : ending) (limit : N) : Prop :=
  let bytes s := N.of_nat (byte_length s) in
  match o with
  | Finished => limit = bytes s
  | Failed r =>
      limit <= error_start r /\ error_start r <= error_end r /\ error_end r <= bytes s
      /\ exists a b before marked, s = (a ++ b)%list /\ limit = bytes a
           /\ bad (error_kind r) before marked (map snd (characters limit b))
  | _ => False
  end.

(** What may stand between tokens. *)
Definition between_tokens (s : text) (ts : list (N * token * N)) (i c : N) : Prop :=
  blank c
  \/ (c = 0xFEFF /\ i = 0)
  \/ (exists a, s = (a ++ [13; 10])%list /\ c = 10 /\ i = N.of_nat (byte_length a) + 1)
  \/ (c = 47 /\ exists start t end_, In (start, t, end_) ts /\ i < start /\ start <= i + slashes t).

(** The token [t] may be written [w]. *)
Definition spells (t : token) (w : text) : Prop := exists ps rest, item ps rest /\ In (Tok t w) ps.
(** The span of a token cuts its text, up to ends of lines, out of the source. *)
Definition cut_out (s : text) (span : N * token * N) : Prop :=
  let '(start, t, end_) := span in
  exists a w b, s = (a ++ w ++ b)%list /\ start = N.of_nat (byte_length a)
    /\ end_ = N.of_nat (byte_length (a ++ w)) /\ spells t (map snd (characters 0 w)).

(** Names and numbers, and numbers with a minus sign. *)
Definition operand (t : token) : Prop := match t with Name _ | Int _ _ | Float _ => True | _ => False end.
Definition negative (t : token) : Prop :=
  match t with Int (c :: _) _ | Float (c :: _) => c = 45 | _ => False end.
