(** Model of compiler-core/src/parse/lexer.rs: from the text of a module to its tokens.

    The functions of the Rust code that take [&mut self] are functions in [M], which pass
    the lexer on.  A [loop] is a function with fuel; running out of fuel is the outcome
    [OutOfFuel], which the theorems exclude.  [Panic] is a failed [expect].  Positions are
    [u32] in the code and unbounded here.

    Left out: the value of a float (only its text is kept), and the two strings of
    [VisuallySimilarInvalidCharacter], for which the character itself stands. *)
From Coq Require Import String NArith ZArith Bool List.
From Verif Require Import Text Strings SrcSpan.
Import ListNotations.
Open Scope N_scope.

(** A character constant. *)
Definition ch (s : string) : N := hd 0 (str s).
Definition newline : N := 10.
Definition carriage_return : N := 13.
Definition tab : N := 9.
Definition form_feed : N := 12.
Definition double_quote : N := 34.
Definition byte_order_mark : N := 0xFEFF.

(** ** Tokens, compiler-core/src/parse/token.rs 11-104 *)

(** The keywords, token.rs 80-103. *)
Inductive keyword :=
| As | Assert | Auto | Case | Const | Delegate | Derive | Echo | Else | Fn | If | Implement
| Import | Let | Macro | Opaque | Panic_ | Pub | Test | Todo | Type_ | Use.

(** The groupings, operators and punctuation, token.rs 33-75. *)
Inductive symbol :=
| LeftParen | RightParen | LeftSquare | RightSquare | LeftBrace | RightBrace
| Plus | Minus | Star | Slash | Less | Greater | LessEqual | GreaterEqual | Percent
| PlusDot | MinusDot | StarDot | SlashDot | LessDot | GreaterDot | LessEqualDot | GreaterEqualDot
| Concatenate
| Colon | Comma | Hash | Bang | Equal | EqualEqual | NotEqual | Vbar | VbarVbar | AmperAmper
| LtLt | GtGt | Pipe | Dot | RArrow | LArrow | DotDot | At.

Inductive token :=
| Name (name : text)
| UpName (name : text)
| DiscardName (name : text)
| Int (value : text) (int_value : Z)
| Float (value : text)
| StringLiteral (value : text)
| CommentDoc (content : text)
| CommentNormal
| CommentModule
| NewLine
| EndOfFile
| Symbol (s : symbol)
| Keyword (k : keyword).

(** [Spanned], lexer.rs 24. *)
Definition spanned : Type := N * token * N.

(** ** Errors, compiler-core/src/parse/error.rs: [LexicalErrorType] and [LexicalError] *)
Inductive unicode_escape_error :=
| MissingOpeningBrace
| ExpectedHexDigitOrCloseBrace
| InvalidNumberOfHexDigits
| InvalidCodepoint.
Inductive error_type :=
| BadStringEscape
| DigitOutOfRadix
| NumTrailingUnderscore
| RadixIntNoValue
| MissingExponent
| UnexpectedStringEnd
| UnrecognizedToken (c : N)
| VisuallySimilarInvalidCharacter (c : N)
| InvalidUnicodeEscape (e : unicode_escape_error)
| InvalidTripleEqual
| MergeConflictIndicator
| UnsupportedProceduralOperator.
Record error := { error_kind : error_type; error_start : N; error_end : N }.

(** ** [NewlineHandler], lexer.rs 65-114 *)

(** [str::char_indices] *)
Fixpoint char_indices (i : N) (s : text) : list (N * N) :=
  match s with
  | [] => []
  | c :: s => (i, c) :: char_indices (i + N.of_nat (len_utf8 c)) s
  end.

Record handler := {
  h_source : list (N * N);
  h_char0 : option (N * N);
  h_char1 : option (N * N) }.

(** [shift], lexer.rs 87-92.  [self.source.next()] is the head of the list. *)
Definition shift (h : handler) : option (N * N) * handler :=
  (h_char0 h,
   {| h_source := tl (h_source h); h_char0 := h_char1 h; h_char1 := hd_error (h_source h) |}).

(** [NewlineHandler::new], lexer.rs 76-85. *)
Definition new_handler (source : list (N * N)) : handler :=
  snd (shift (snd (shift {| h_source := source; h_char0 := None; h_char1 := None |}))).

(** [next], lexer.rs 101-114. *)
Definition handler_next (h : handler) : option (N * N) * handler :=
  match h_char0 h with
  | Some (index, c) =>
      if c =? carriage_return then
        match h_char1 h with
        | Some (_, c1) =>
            if c1 =? newline then
              let h := snd (shift h) in
              shift {| h_source := h_source h; h_char0 := Some (index, newline); h_char1 := h_char1 h |}
            else
              shift {| h_source := h_source h; h_char0 := Some (index, newline); h_char1 := h_char1 h |}
        | None => shift {| h_source := h_source h; h_char0 := Some (index, newline); h_char1 := None |}
        end
      else shift h
  | None => shift h
  end.

(** ** The lexer, lexer.rs 15-23 *)
Record lexer := {
  chars : handler;
  pending : list spanned;
  char0 : option N;
  char1 : option N;
  location0 : N;
  location1 : N }.

Inductive outcome (A : Type) :=
| Ok (a : A)
| Err (e : error)
| Panic
| OutOfFuel.
Arguments Ok {A}.
Arguments Err {A}.
Arguments Panic {A}.
Arguments OutOfFuel {A}.

Definition M (A : Type) : Type := lexer -> outcome A * lexer.
Definition ret {A} (a : A) : M A := fun x => (Ok a, x).
Definition bind {A B} (m : M A) (k : A -> M B) : M B := fun x =>
  match m x with
  | (Ok a, x) => k a x
  | (Err e, x) => (Err e, x)
  | (Panic, x) => (Panic, x)
  | (OutOfFuel, x) => (OutOfFuel, x)
  end.
Notation "'let!' x := m 'in' k" := (bind m (fun x => k)) (at level 200, x name, m at level 100, k at level 200).
Notation "m ;; k" := (bind m (fun _ => k)) (at level 100, right associativity).

Definition get_char0 : M (option N) := fun x => (Ok (char0 x), x).
Definition get_char1 : M (option N) := fun x => (Ok (char1 x), x).

(** [get_position], lexer.rs 1540-1542. *)
Definition get_position : M N := fun x => (Ok (location0 x), x).

(** [emit], lexer.rs 1545-1547. *)
Definition emit (spanned : spanned) : M unit := fun x =>
  (Ok tt, {| chars := chars x; pending := pending x ++ [spanned]; char0 := char0 x;
             char1 := char1 x; location0 := location0 x; location1 := location1 x |}).

(** [Err(LexicalError { error, location })] *)
Definition fail {A} (kind : error_type) (start end_ : N) : M A := fun x =>
  (Err {| error_kind := kind; error_start := start; error_end := end_ |}, x).
Definition panic {A} : M A := fun x => (Panic, x).
Definition out_of_fuel {A} : M A := fun x => (OutOfFuel, x).

(** More than the number of characters ahead, for the loops that consume one each. *)
Definition left (x : lexer) : nat := 6 + length (h_source (chars x)).
Definition get_left : M nat := fun x => (Ok (left x), x).

(** [next_char], lexer.rs 1517-1537. *)
Definition next_char : M (option N) := fun x =>
  let '(next, chars) := handler_next (chars x) in
  (Ok (char0 x),
   {| chars := chars; pending := pending x; char0 := char1 x;
      char1 := option_map snd next;
      location0 := location1 x;
      location1 := match next with Some (location, _) => location | None => location1 x + 1 end |}).

(** [eat_single_char], lexer.rs 1509-1514. *)
Definition eat_single_char (t : token) : M unit :=
  let! token_start := get_position in
  let! c := next_char in
  match c with
  | None => panic
  | Some _ =>
      let! token_end := get_position in
      emit (token_start, t, token_end)
  end.

(** ** Classes of characters, lexer.rs 1484-1506 *)
Definition is_name_start (c : N) : bool := (c =? underscore) || is_lower c.
Definition is_upname_start (c : N) : bool := is_upper c.
Definition is_number_start (c : N) (c1 : option N) : bool :=
  is_digit c
  || ((c =? ch "-") && match c1 with Some c1 => is_digit c1 | None => false end).
Definition is_name_continuation (c : option N) : bool :=
  match c with
  | Some c => (c =? underscore) || is_digit c || is_lower c || is_upper c
  | None => false
  end.

(** [is_digit_of_radix], lexer.rs 1277-1282; the callers give 2, 8, 10 or 16. *)
Definition digit_of_radix (radix : N) (c : N) : bool :=
  if radix <=? 10 then (48 <=? c) && (c <? 48 + radix) else is_hexdigit c.
Definition is_digit_of_radix (c : option N) (radix : N) : bool :=
  match c with Some c => digit_of_radix radix c | None => false end.

(** ** Names, lexer.rs 27-54 and 1020-1068 *)
Definition string_to_keyword (w : text) : option keyword :=
  if text_eqb w (str "as") then Some As
  else if text_eqb w (str "assert") then Some Assert
  else if text_eqb w (str "auto") then Some Auto
  else if text_eqb w (str "case") then Some Case
  else if text_eqb w (str "const") then Some Const
  else if text_eqb w (str "delegate") then Some Delegate
  else if text_eqb w (str "derive") then Some Derive
  else if text_eqb w (str "echo") then Some Echo
  else if text_eqb w (str "else") then Some Else
  else if text_eqb w (str "fn") then Some Fn
  else if text_eqb w (str "if") then Some If
  else if text_eqb w (str "implement") then Some Implement
  else if text_eqb w (str "import") then Some Import
  else if text_eqb w (str "let") then Some Let
  else if text_eqb w (str "macro") then Some Macro
  else if text_eqb w (str "opaque") then Some Opaque
  else if text_eqb w (str "panic") then Some Panic_
  else if text_eqb w (str "pub") then Some Pub
  else if text_eqb w (str "test") then Some Test
  else if text_eqb w (str "todo") then Some Todo
  else if text_eqb w (str "type") then Some Type_
  else if text_eqb w (str "use") then Some Use
  else None.

(** [while self.is_name_continuation() { name.push(self.next_char()…) }] *)
Fixpoint name_loop (fuel : nat) (name : text) : M text :=
  match fuel with
  | O => out_of_fuel
  | S fuel =>
      let! c := get_char0 in
      if is_name_continuation c then
        let! c := next_char in
        match c with None => panic | Some c => name_loop fuel (name ++ [c]) end
      else ret name
  end.

(** [lex_name], lexer.rs 1022-1047. *)
Definition lex_name : M spanned :=
  let! start_position := get_position in
  let! fuel := get_left in
  let! name := name_loop fuel [] in
  let! end_position := get_position in
  match string_to_keyword name with
  | Some k => ret (start_position, Keyword k, end_position)
  | None =>
      if starts_with (str "_") name then ret (start_position, DiscardName name, end_position)
      else ret (start_position, Name name, end_position)
  end.

(** [lex_upname], lexer.rs 1049-1068. *)
Definition lex_upname : M spanned :=
  let! start_position := get_position in
  let! fuel := get_left in
  let! name := name_loop fuel [] in
  let! end_position := get_position in
  match string_to_keyword name with
  | Some k => ret (start_position, Keyword k, end_position)
  | None => ret (start_position, UpName name, end_position)
  end.

(** ** Numbers *)

(** [radix_run] and [take_number], lexer.rs 1244-1274. *)
Fixpoint radix_run_loop (fuel : nat) (radix : N) (value_text : text) : M text :=
  match fuel with
  | O => out_of_fuel
  | S fuel =>
      let! c0 := get_char0 in
      let! c1 := get_char1 in
      if is_digit_of_radix c0 radix then
        let! c := next_char in
        match c with None => panic | Some c => radix_run_loop fuel radix (value_text ++ [c]) end
      else if match c0 with Some c => c =? underscore | None => false end && is_digit_of_radix c1 radix then
        next_char ;; radix_run_loop fuel radix (value_text ++ [underscore])
      else ret value_text
  end.
Definition radix_run (radix : N) : M text :=
  let! fuel := get_left in radix_run_loop fuel radix [].

(** [BigInt::parse_bytes]: an optional sign, then digits, among which underscores are
    allowed but not in front. *)
Definition digit_value (c : N) : N := hex_digit_value c.
Fixpoint parse_digits (radix : N) (acc : N) (s : text) : option N :=
  match s with
  | [] => Some acc
  | c :: s =>
      if c =? underscore then parse_digits radix acc s
      else if digit_of_radix radix c then parse_digits radix (radix * acc + digit_value c) s
      else None
  end.
Definition parse_unsigned (radix : N) (s : text) : option N :=
  match s with
  | [] => None
  | c :: _ => if c =? underscore then None else parse_digits radix 0 s
  end.
Definition parse_bytes (radix : N) (s : text) : option Z :=
  match s with
  | c :: s' =>
      if c =? ch "-" then option_map (fun n => Z.opp (Z.of_N n)) (parse_unsigned radix s')
      else option_map Z.of_N (parse_unsigned radix s)
  | [] => None
  end.

(** [parse_int_value], compiler-core/src/parse.rs 5422-5436. *)
Fixpoint trim_start_underscores (s : text) : text :=
  match s with
  | c :: s' => if c =? underscore then trim_start_underscores s' else s
  | [] => []
  end.
Definition parse_int_value (value : text) : option Z :=
  let '(radix, value) :=
    if starts_with (str "0x") value then (16, skipn 2 value)
    else if starts_with (str "0o") value then (8, skipn 2 value)
    else if starts_with (str "0b") value then (2, skipn 2 value)
    else (10, value) in
  parse_bytes radix (trim_start_underscores value).

(** [lex_number_radix], lexer.rs 1127-1171. *)
Definition lex_number_radix (start_pos radix : N) (is_negative : bool) (prefix : text) : M spanned :=
  let! num := radix_run radix in
  let! c := get_char0 in
  match num with
  | [] => let! location := get_position in fail RadixIntNoValue (location - 1) (location - 1)
  | _ :: _ =>
      if (radix <? 16) && is_digit_of_radix c 16 then
        let! location := get_position in fail DigitOutOfRadix location location
      else
        let value := (prefix ++ num)%list in
        match parse_int_value value with
        | None => panic
        | Some int_value =>
            let! end_pos := get_position in
            if is_negative
            then ret (start_pos, Int (ch "-" :: value) (Z.opp int_value), end_pos)
            else ret (start_pos, Int value int_value, end_pos)
        end
  end.

(** [lex_decimal_or_int_number], lexer.rs 1183-1241. *)
Definition lex_decimal_or_int_number (start_pos : N) (is_negative can_lex_decimal : bool) : M spanned :=
  let! digits := radix_run 10 in
  let value := ((if is_negative then str "-" else []) ++ digits)%list in
  let! c := get_char0 in
  if can_lex_decimal && match c with Some c => c =? ch "." | None => false end then
    next_char ;;
    let! fraction := radix_run 10 in
    let value := (value ++ str "." ++ fraction)%list in
    let! c := get_char0 in
    if match c with Some c => c =? ch "e" | None => false end then
      next_char ;;
      let value := (value ++ str "e")%list in
      let! c := get_char0 in
      let! value :=
        (if match c with Some c => c =? ch "-" | None => false end
         then next_char ;; ret (value ++ str "-")%list
         else ret value) in
      let! exponent_run := radix_run 10 in
      let! end_pos := get_position in
      match exponent_run with
      | [] => fail MissingExponent start_pos end_pos
      | _ :: _ => ret (start_pos, Float (value ++ exponent_run)%list, end_pos)
      end
    else
      let! end_pos := get_position in
      ret (start_pos, Float value, end_pos)
  else
    match parse_int_value value with
    | None => panic
    | Some int_value =>
        let! end_pos := get_position in
        ret (start_pos, Int value int_value, end_pos)
    end.
(** [lex_decimal_number] and [lex_int_number], lexer.rs 1175-1181. *)
Definition lex_decimal_number (start_pos : N) (is_negative : bool) : M spanned :=
  lex_decimal_or_int_number start_pos is_negative true.
Definition lex_int_number (start_pos : N) (is_negative : bool) : M spanned :=
  lex_decimal_or_int_number start_pos is_negative false.

(** The letter after a zero, lexer.rs 1087-1110. *)
Definition radix_of (c : option N) : option (N * text) :=
  match c with
  | Some c =>
      if (c =? ch "x") || (c =? ch "X") then Some (16, str "0x")
      else if (c =? ch "o") || (c =? ch "O") then Some (8, str "0o")
      else if (c =? ch "b") || (c =? ch "B") then Some (2, str "0b")
      else None
  | None => None
  end.

(** [lex_number], lexer.rs 1070-1124. *)
Definition lex_number : M spanned :=
  let! start_position := get_position in
  let! c := get_char0 in
  let! is_negative :=
    (if match c with Some c => c =? ch "-" | None => false end
     then next_char ;; ret true
     else ret false) in
  let! c0 := get_char0 in
  let! c1 := get_char1 in
  let! number :=
    (if match c0 with Some c => c =? ch "0" | None => false end then
       match radix_of c1 with
       | Some (radix, prefix) =>
           next_char ;; next_char ;; lex_number_radix start_position radix is_negative prefix
       | None => lex_decimal_number start_position is_negative
       end
     else lex_decimal_number start_position is_negative) in
  let! c := get_char0 in
  if match c with Some c => c =? underscore | None => false end then
    let! location := get_position in
    fail NumTrailingUnderscore location location
  else ret number.

(** [maybe_lex_dot_access], lexer.rs 1228-1240. *)
Fixpoint dot_access_loop (fuel : nat) : M unit :=
  match fuel with
  | O => out_of_fuel
  | S fuel =>
      let! c := get_char0 in
      if match c with Some c => is_digit c | None => false end then
        let! position := get_position in
        let! number := lex_int_number position false in
        emit number ;;
        dot_access_loop fuel
      else ret tt
  end.
Definition maybe_lex_dot_access : M unit := let! fuel := get_left in dot_access_loop fuel.

(** ** Comments: [lex_comment], lexer.rs 1289-1326 *)
Inductive comment_kind := NormalComment | DocComment | ModuleDocComment.
Fixpoint comment_loop (fuel : nat) (content : text) : M text :=
  match fuel with
  | O => out_of_fuel
  | S fuel =>
      let! c := get_char0 in
      match c with
      | None => ret content
      | Some c =>
          if c =? newline then ret content
          else next_char ;; comment_loop fuel (content ++ [c])
      end
  end.
Definition lex_comment : M spanned :=
  let slash c := match c with Some c => c =? ch "/" | None => false end in
  let! c0 := get_char0 in
  let! c1 := get_char1 in
  let! kind :=
    (if slash c0 && slash c1 then next_char ;; next_char ;; ret ModuleDocComment
     else if slash c0 then next_char ;; ret DocComment
     else ret NormalComment) in
  let! start_position := get_position in
  let! fuel := get_left in
  let! content := comment_loop fuel [] in
  let! end_position := get_position in
  ret (start_position,
       match kind with
       | NormalComment => CommentNormal
       | DocComment => CommentDoc content
       | ModuleDocComment => CommentModule
       end,
       end_position).

(** ** Strings: [lex_string], lexer.rs 1328-1482 *)

(** The loop that collects the digits of [\u{..}], lexer.rs 1366-1394. *)
Fixpoint hex_loop (fuel : nat) (hex_digits : text) : M text :=
  match fuel with
  | O => out_of_fuel
  | S fuel =>
      next_char ;;
      let! c := get_char0 in
      match c with
      | None => ret hex_digits
      | Some chr =>
          if chr =? brace_close then ret hex_digits
          else if negb (is_hexdigit chr) then
            let! position := get_position in
            fail (InvalidUnicodeEscape ExpectedHexDigitOrCloseBrace) position (position + 1)
          else hex_loop fuel (hex_digits ++ [chr])
      end
  end.

(** The part of the loop after [\u], lexer.rs 1352-1442: the text to push. *)
Definition unicode_escape (slash_position : N) : M text :=
  next_char ;;
  let! c := get_char0 in
  let! position := get_position in
  if negb match c with Some c => c =? brace_open | None => false end then
    fail (InvalidUnicodeEscape MissingOpeningBrace) (position - 1) position
  else
    let! fuel := get_left in
    let! hex_digits := hex_loop fuel [] in
    let! c := get_char0 in
    let! position := get_position in
    if negb match c with Some c => c =? brace_close | None => false end then
      fail (InvalidUnicodeEscape ExpectedHexDigitOrCloseBrace) (position - 1) position
    else
      next_char ;;
      let! position := get_position in
      if negb ((1 <=? length hex_digits)%nat && (length hex_digits <=? 6)%nat) then
        fail (InvalidUnicodeEscape InvalidNumberOfHexDigits) slash_position position
      else
        match u32_from_hex hex_digits with
        | None => panic
        | Some n =>
            match char_from_u32 n with
            | None => fail (InvalidUnicodeEscape InvalidCodepoint) slash_position position
            | Some _ => ret (str "\u{" ++ hex_digits ++ str "}")%list
            end
        end.

Definition simple_escape (c : N) : bool :=
  (c =? ch "f") || (c =? ch "n") || (c =? ch "r") || (c =? ch "t") || (c =? double_quote) || (c =? backslash).

Fixpoint string_loop (fuel : nat) (start_position : N) (string_content : text) : M text :=
  match fuel with
  | O => out_of_fuel
  | S fuel =>
      let! c := next_char in
      match c with
      | None => fail UnexpectedStringEnd start_position start_position
      | Some c =>
          if c =? backslash then
            let! position := get_position in
            let slash_position := position - 1 in
            let! c0 := get_char0 in
            match c0 with
            | None => fail BadStringEscape slash_position slash_position
            | Some character =>
                if simple_escape character then
                  next_char ;;
                  string_loop fuel start_position (string_content ++ [backslash; character])
                else if character =? ch "u" then
                  let! escape := unicode_escape slash_position in
                  string_loop fuel start_position (string_content ++ escape)
                else fail BadStringEscape slash_position (slash_position + 1)
            end
          else if c =? double_quote then ret string_content
          else string_loop fuel start_position (string_content ++ [c])
      end
  end.
Definition lex_string : M spanned :=
  let! start_position := get_position in
  next_char ;;
  let! fuel := get_left in
  let! content := string_loop fuel start_position [] in
  let! end_position := get_position in
  ret (start_position, StringLiteral content, end_position).

(** ** Operators *)

(** [let _ = self.next_char(); self.emit((token_start, token, self.get_position()))] *)
Definition operator (token_start : N) (s : symbol) : M unit :=
  next_char ;;
  let! token_end := get_position in
  emit (token_start, Symbol s, token_end).
(** [self.emit((token_start, token, self.get_position()))] *)
Definition emit_symbol (token_start : N) (s : symbol) : M unit :=
  let! token_end := get_position in
  emit (token_start, Symbol s, token_end).
Definition unsupported (token_start : N) : M unit :=
  next_char ;;
  let! token_end := get_position in
  fail UnsupportedProceduralOperator token_start token_end.

(** [match self.char0 { Some(c) => …, … , _ => otherwise }] *)
Fixpoint choose (c0 : option N) (arms : list (N * M unit)) (otherwise : M unit) : M unit :=
  match arms with
  | [] => otherwise
  | (c, arm) :: arms =>
      if match c0 with Some c0 => c0 =? c | None => false end then arm
      else choose c0 arms otherwise
  end.
Definition on_char0 (arms : list (N * M unit)) (otherwise : M unit) : M unit :=
  let! c := get_char0 in choose c arms otherwise.

(** [loop { if seen >= 7 { … } if self.char0 == Some(c) { … } else { break } }], the loop of
    lexer.rs 229-255, 918-945 and 975-1002: the number of characters seen. *)
Fixpoint run_loop (fuel : nat) (c : N) (token_start : N) (seen : nat) : M nat :=
  match fuel with
  | O => out_of_fuel
  | S fuel =>
      if (7 <=? seen)%nat then
        let! position := get_position in
        fail MergeConflictIndicator token_start position
      else
        let! c0 := get_char0 in
        if match c0 with Some c0 => c0 =? c | None => false end
        then next_char ;; run_loop fuel c token_start (S seen)
        else ret seen
  end.

(** [while seen > 1 { emit; token_start += 2; seen -= 2 }]: the start of what is left and
    whether a character is left. *)
Fixpoint pairs (s : symbol) (token_start : N) (seen : nat) : M (N * bool) :=
  match seen with
  | O => ret (token_start, false)
  | S O => ret (token_start, true)
  | S (S seen) =>
      emit (token_start, Symbol s, token_start + 2) ;;
      pairs s (token_start + 2) seen
  end.

(** The arm ['='], lexer.rs 196-258. *)
Definition lex_equals : M unit :=
  let! token_start := get_position in
  next_char ;;
  on_char0
    [(ch "=",
      next_char ;;
      on_char0
        [(ch "=",
          next_char ;;
          let! c := get_char0 in
          if negb match c with Some c => c =? ch "=" | None => false end then
            let! position := get_position in
            fail InvalidTripleEqual token_start position
          else
            let! seen_equals := run_loop 8 (ch "=") token_start 3 in
            let! left_over := pairs EqualEqual token_start seen_equals in
            if snd left_over then emit_symbol (fst left_over) Equal else ret tt)]
        (emit_symbol token_start EqualEqual))]
    (emit_symbol token_start Equal).

(** [lex_lt], lexer.rs 900-963.  It calls itself once, when a single [<] is left. *)
Fixpoint lex_lt (fuel : nat) (token_start : N) : M unit :=
  match fuel with
  | O => out_of_fuel
  | S fuel =>
      on_char0
        [(ch ">", operator token_start Concatenate);
         (ch "<",
          next_char ;;
          on_char0
            [(ch "<",
              next_char ;;
              let! seen_lt := run_loop 8 (ch "<") token_start 3 in
              let! left_over := pairs LtLt token_start seen_lt in
              if snd left_over then lex_lt fuel (fst left_over) else ret tt)]
            (emit_symbol token_start LtLt));
         (ch ".", operator token_start LessDot);
         (ch "-", operator token_start LArrow);
         (ch "=",
          next_char ;;
          on_char0 [(ch ".", operator token_start LessEqualDot)] (emit_symbol token_start LessEqual))]
        (emit_symbol token_start Less)
  end.

(** [lex_gt], lexer.rs 966-1019. *)
Fixpoint lex_gt (fuel : nat) (token_start : N) : M unit :=
  match fuel with
  | O => out_of_fuel
  | S fuel =>
      on_char0
        [(ch ">",
          next_char ;;
          on_char0
            [(ch ">",
              next_char ;;
              let! seen_gt := run_loop 8 (ch ">") token_start 3 in
              let! left_over := pairs GtGt token_start seen_gt in
              if snd left_over then lex_gt fuel (fst left_over) else ret tt)]
            (emit_symbol token_start GtGt));
         (ch ".", operator token_start GreaterDot);
         (ch "=",
          next_char ;;
          on_char0 [(ch ".", operator token_start GreaterEqualDot)] (emit_symbol token_start GreaterEqual))]
        (emit_symbol token_start Greater)
  end.

(** The arms of [consume_character] that eat one character. *)
Definition single_character (c : N) : option symbol :=
  if c =? ch "@" then Some At
  else if c =? ch "(" then Some LeftParen
  else if c =? ch ")" then Some RightParen
  else if c =? ch "[" then Some LeftSquare
  else if c =? ch "]" then Some RightSquare
  else if c =? ch "{" then Some LeftBrace
  else if c =? ch "}" then Some RightBrace
  else if c =? ch ":" then Some Colon
  else if c =? ch "," then Some Comma
  else if c =? ch "#" then Some Hash
  else None.

(** The visually similar characters of lexer.rs 500-876. *)
Definition visually_similar : list N :=
  [0x201A; 0xFF3B; 0xFF3D; 0xFF08; 0xFF09; 0xFF0E; 0x3002; 0xFF1C; 0xFF1E; 0xFF5C; 0xFF20; 0xFF3E;
   0xFF1A; 0x201C; 0x201D; 0x2018; 0x2019; 0x2013; 0x2014; 0x2217; 0x2215; 0x00A0; 0x200B; 0x0430;
   0x0435; 0x043E; 0x0440; 0x1D35; 0xFF0C; 0x3001].

(** [consume_character], lexer.rs 188-897. *)
Definition consume_character (character : N) : M unit :=
  match single_character character with
  | Some s => eat_single_char (Symbol s)
  | None =>
      if character =? double_quote then let! s := lex_string in emit s
      else if character =? ch "=" then lex_equals
      else
        let! token_start := get_position in
        if character =? ch "+" then
          next_char ;;
          on_char0
            [(ch ".", operator token_start PlusDot); (ch "=", unsupported token_start);
             (ch "+", unsupported token_start)]
            (emit_symbol token_start Plus)
        else if character =? ch "*" then
          next_char ;;
          on_char0
            [(ch ".", operator token_start StarDot); (ch "=", unsupported token_start)]
            (emit_symbol token_start Star)
        else if character =? ch "/" then
          next_char ;;
          on_char0
            [(ch ".", operator token_start SlashDot);
             (ch "/", next_char ;; let! comment := lex_comment in emit comment);
             (ch "=", unsupported token_start)]
            (emit_symbol token_start Slash)
        else if character =? ch "%" then
          next_char ;;
          on_char0 [(ch "=", unsupported token_start)] (emit_symbol token_start Percent)
        else if character =? ch "|" then
          next_char ;;
          on_char0
            [(ch "|", operator token_start VbarVbar); (ch ">", operator token_start Pipe)]
            (emit_symbol token_start Vbar)
        else if character =? ch "&" then
          next_char ;;
          on_char0
            [(ch "&", operator token_start AmperAmper)]
            (fail (UnrecognizedToken (ch "&")) token_start token_start)
        else if character =? ch "-" then
          next_char ;;
          on_char0
            [(ch ".", operator token_start MinusDot); (ch ">", operator token_start RArrow);
             (ch "=", unsupported token_start)]
            (emit_symbol token_start Minus)
        else if character =? ch "!" then
          next_char ;;
          on_char0 [(ch "=", operator token_start NotEqual)] (emit_symbol token_start Bang)
        else if character =? ch "<" then next_char ;; lex_lt 3 token_start
        else if character =? ch ">" then next_char ;; lex_gt 3 token_start
        else if character =? ch "." then
          next_char ;;
          on_char0
            [(ch ".", operator token_start DotDot)]
            (emit_symbol token_start Dot ;; maybe_lex_dot_access)
        else if (character =? newline) || (character =? space) || (character =? tab) || (character =? form_feed) then
          next_char ;;
          let! token_end := get_position in
          if character =? newline then emit (token_start, NewLine, token_end) else ret tt
        else if existsb (N.eqb character) visually_similar then
          fail (VisuallySimilarInvalidCharacter character) token_start token_start
        else fail (UnrecognizedToken character) token_start token_start
  end.

(** [consume_normal], lexer.rs 155-186. *)
Definition check_for_minus : M unit :=
  let! c0 := get_char0 in
  let! c1 := get_char1 in
  if match c0 with Some c => c =? ch "-" | None => false end && is_number_start (ch "-") c1
  then eat_single_char (Symbol Minus)
  else ret tt.
Definition consume_normal : M unit :=
  let! c0 := get_char0 in
  let! c1 := get_char1 in
  match c0 with
  | Some character =>
      if is_upname_start character then
        let! name := lex_upname in emit name
      else if is_name_start character then
        let! name := lex_name in emit name ;; check_for_minus
      else if is_number_start character c1 then
        let! num := lex_number in emit num ;; check_for_minus
      else consume_character character
  | None =>
      let! token_pos := get_position in
      emit (token_pos, EndOfFile, token_pos)
  end.

(** ** The iterator *)

(** [self.pending.remove(0)] *)
Definition set_pending (p : list spanned) (x : lexer) : lexer :=
  {| chars := chars x; pending := p; char0 := char0 x; char1 := char1 x;
     location0 := location0 x; location1 := location1 x |}.

(** [inner_next], lexer.rs 144-151. *)
Fixpoint inner_next (fuel : nat) : M spanned :=
  match fuel with
  | O => out_of_fuel
  | S fuel => fun x =>
      match pending x with
      | t :: p => (Ok t, set_pending p x)
      | [] => (consume_normal ;; inner_next fuel) x
      end
  end.

(** [Iterator::next], lexer.rs 1557-1564: [None] at the end of the file. *)
Definition next : M (option spanned) :=
  let! fuel := get_left in
  let! t := inner_next fuel in
  ret match t with
      | (_, EndOfFile, _) => None
      | _ => Some t
      end.

(** [Lexer::new], lexer.rs 118-140, with [make_tokenizer], lexer.rs 56-62. *)
Definition make_tokenizer (source : text) : lexer :=
  let x := {| chars := new_handler (char_indices 0 source); pending := [];
              char0 := None; char1 := None; location0 := 0; location1 := 0 |} in
  let x := snd (next_char (snd (next_char x))) in
  match char0 x with
  | Some c => if c =? byte_order_mark then snd (next_char x) else x
  | None => x
  end.

(** How a lexed module ends: at the end of the file, or at the first error, where the
    parser gives up on the tokens that follow ([next_token] in parse.rs 4658-4705 takes an
    error for the end). *)
Inductive ending :=
| Finished
| Failed (e : error)
| Crashed
| Unfinished.

(** [loop { match lexer.next() { … } }]: all tokens up to the end or the first error. *)
Fixpoint collect (fuel : nat) (x : lexer) : list spanned * ending :=
  match fuel with
  | O => ([], Unfinished)
  | S fuel =>
      match next x with
      | (Ok (Some t), x) => let '(ts, e) := collect fuel x in (t :: ts, e)
      | (Ok None, _) => ([], Finished)
      | (Err e, _) => ([], Failed e)
      | (Panic, _) => ([], Crashed)
      | (OutOfFuel, _) => ([], Unfinished)
      end
  end.
Definition lex (source : text) : list spanned * ending :=
  collect (S (length source)) (make_tokenizer source).
