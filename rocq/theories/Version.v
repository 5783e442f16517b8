(** Model of Hex versions and version requirements:
    /repo/hexpm/src/version.rs, /repo/hexpm/src/version/lexer.rs and
    /repo/hexpm/src/version/parser.rs.

    [pubgrub::Range] comes from another crate.  It is modelled by the expression
    that builds it, with the membership test its documentation gives: bounds are
    compared with the [Ord] of versions. *)
From Coq Require Import NArith Bool String List.
From Verif Require Import Text.
Import ListNotations.
Open Scope N_scope.

(** ** Versions: version.rs *)

(** version.rs:228-232 *)
Inductive identifier := Numeric (n : N) | AlphaNumeric (s : text).

(** version.rs:37-44 *)
Record version := Version {
  major : N; minor : N; patch : N; pre : list identifier; build : option text
}.

(** [x + 1] on u32; a debug build panics instead of wrapping. *)
Definition u32_succ (x : N) : N := (x + 1) mod 2 ^ 32.

(** version.rs:57-85 *)
Definition bump_major (v : version) : version := Version (u32_succ (major v)) 0 0 [] None.
Definition bump_minor (v : version) : version := Version (major v) (u32_succ (minor v)) 0 [] None.
Definition bump_patch (v : version) : version :=
  Version (major v) (minor v) (u32_succ (patch v)) [] None.

(** version.rs:121-123, 134-136 *)
Definition lowest : version := Version 0 0 0 [] None.
Definition is_pre (v : version) : bool := match pre v with [] => false | _ => true end.

(** The derived [Ord] of [Identifier] and of slices. *)
Definition identifier_cmp (a b : identifier) : comparison :=
  match a, b with
  | Numeric n, Numeric m => n ?= m
  | Numeric _, AlphaNumeric _ => Lt
  | AlphaNumeric _, Numeric _ => Gt
  | AlphaNumeric s, AlphaNumeric t => text_cmp s t
  end.
Fixpoint identifiers_cmp (a b : list identifier) : comparison :=
  match a, b with
  | [], [] => Eq
  | [], _ => Lt
  | _, [] => Gt
  | x :: a, y :: b => match identifier_cmp x y with Eq => identifiers_cmp a b | c => c end
  end.

(** version.rs:346-358 [Ord for PreOrder] *)
Definition pre_cmp (a b : list identifier) : comparison :=
  match a, b with
  | [], [] => Eq
  | [], _ => Gt
  | _, [] => Lt
  | _, _ => identifiers_cmp a b
  end.

(** version.rs:125-132, 195-199: tuples compare lexicographically. *)
Definition then_cmp (a b : comparison) : comparison := match a with Eq => b | c => c end.
Definition cmp (v w : version) : comparison :=
  then_cmp (major v ?= major w)
    (then_cmp (minor v ?= minor w)
       (then_cmp (patch v ?= patch w) (pre_cmp (pre v) (pre w)))).

(** version.rs:234-241 [Display for Identifier] *)
Definition show_identifier (i : identifier) : text :=
  match i with Numeric n => decimal n | AlphaNumeric s => s end.
Fixpoint show_dotted (l : list identifier) : text :=
  match l with
  | [] => []
  | [i] => show_identifier i
  | i :: l => (show_identifier i ++ str "." ++ show_dotted l)%list
  end.
(** version.rs:209-226 [Display for Version] *)
Definition show (v : version) : text :=
  (decimal (major v) ++ str "." ++ decimal (minor v) ++ str "." ++ decimal (patch v)
   ++ (if is_pre v then str "-" ++ show_dotted (pre v) else [])
   ++ match build v with Some b => str "+" ++ b | None => [] end)%list.

(** version.rs:243-253 [Identifier::concat] *)
Definition concat (i : identifier) (add : text) : identifier :=
  match i with
  | Numeric n => AlphaNumeric (decimal n ++ add)
  | AlphaNumeric s => AlphaNumeric (s ++ add)
  end.

(** ** Lexer: lexer.rs *)

(** lexer.rs:39-72.  [Whitespace] carries the text instead of its span. *)
Inductive token :=
| TEq | TNotEq | TGt | TLt | TLtEq | TGtEq | TPessimistic | TDot | THyphen | TPlus | TOr | TAnd
| TWhitespace (s : text)
| TNumeric (n : N)
| TAlphaNumeric (s : text)
| TLeadingZero (s : text).

Definition is_whitespace (c : N) : bool := (c =? 32) || (c =? 9) || (c =? 10) || (c =? 13).

(** [str::parse::<u32>] on text made of letters and digits. *)
Definition parse_u32 (s : text) : option N :=
  if forallb is_digit s && (decimal_value s <? 2 ^ 32) && negb (text_eqb s [])
  then Some (decimal_value s) else None.

(** lexer.rs:160-183 [component]: the classification of the text of a component. *)
Definition classify (s : text) : token :=
  match s with
  | [] => TAlphaNumeric s
  | a :: b =>
      if (a =? 48) && text_eqb b [] then TNumeric 0
      else
        match parse_u32 s with
        | Some n => if a =? 48 then TLeadingZero s else TNumeric n
        | None => TAlphaNumeric s
        end
  end.

(** [component] once its first characters [first] are stepped over. *)
Definition component (first rest : text) : token * text :=
  let '(more, rest) := span_while is_alphanumeric rest in
  (classify (first ++ more), rest).

(** One call of the lexer: a token, or the unexpected character. *)
Inductive item := Tok (t : token) | UnexpectedChar (c : N).

(** lexer.rs:214-257 [next], on the characters not consumed yet: the second pair of
    lookahead characters first, then a single one. *)
Definition lex_single (c : N) (s : text) : item * text :=
  if is_whitespace c then
    let '(more, rest) := span_while is_whitespace s in (Tok (TWhitespace (c :: more)), rest)
  else if c =? 62 then (Tok TGt, s)
  else if c =? 60 then (Tok TLt, s)
  else if c =? 46 then (Tok TDot, s)
  else if c =? 45 then (Tok THyphen, s)
  else if c =? 43 then (Tok TPlus, s)
  else if is_alphanumeric c then let '(t, rest) := component [c] s in (Tok t, rest)
  else (UnexpectedChar c, c :: s).

Definition lex_next (s : text) : option (item * text) :=
  match s with
  | [] => None
  | c :: s' =>
      if starts_with (str "~>") s then Some (Tok TPessimistic, skipn 2 s)
      else if starts_with (str "!=") s then Some (Tok TNotEq, skipn 2 s)
      else if starts_with (str "<=") s then Some (Tok TLtEq, skipn 2 s)
      else if starts_with (str ">=") s then Some (Tok TGtEq, skipn 2 s)
      else if starts_with (str "==") s then Some (Tok TEq, skipn 2 s)
      else if starts_with (str "or") s then Some (Tok TOr, skipn 2 s)
      else if starts_with (str "an") s then
        (* lexer.rs:185-193 [and] *)
        if starts_with (str "and") s then Some (Tok TAnd, skipn 3 s)
        else let '(t, rest) := component (str "an") (skipn 2 s) in Some (Tok t, rest)
      else Some (lex_single c s')
  end.

(** ** Parser: parser.rs *)

(** parser.rs:16-34; texts of tokens are left as tokens.  [OutOfFuel] is not an
    error of the code: it stands for a loop bound of the model that was too low. *)
Inductive error :=
| UnexpectedEnd
| UnexpectedToken (t : token)
| Lexer (c : N)
| MoreInput
| MinorVersionMissing (major : N)
| PatchVersionMissing (major minor : N)
| OutOfFuel.

Inductive result (A : Type) := Ok (a : A) | Err (e : error).
Arguments Ok {A}. Arguments Err {A}.

Definition bind {A B} (r : result A) (f : A -> result B) : result B :=
  match r with Ok a => f a | Err e => Err e end.
Notation "'let*' p ':=' r 'in' k" := (bind r (fun p => k)) (at level 200, p pattern, k at level 200).

(** parser.rs:71-76: the lookahead token and what the lexer has not consumed. *)
Record parser := Parser { c1 : option token; input : text }.

(** [self.lexer.next()] *)
Definition advance (s : text) : result parser :=
  match lex_next s with
  | None => Ok (Parser None [])
  | Some (Tok t, s) => Ok (Parser (Some t) s)
  | Some (UnexpectedChar c, _) => Err (Lexer c)
  end.

(** parser.rs:80-90 *)
Definition parser_new (s : text) : result parser := advance s.

(** parser.rs:94-102 *)
Definition pop (p : parser) : result (token * parser) :=
  let* p' := advance (input p) in
  match c1 p with
  | Some t => Ok (t, p')
  | None => Err UnexpectedEnd
  end.

(** parser.rs:111-124 *)
Definition skip_whitespace (p : parser) : result parser :=
  match c1 p with
  | Some (TWhitespace _) => let* (_, p) := pop p in Ok p
  | _ => Ok p
  end.
Definition expect_whitespace (p : parser) : result parser :=
  let* (t, p) := pop p in
  match t with TWhitespace _ => Ok p | t => Err (UnexpectedToken t) end.

(** parser.rs:127-145 *)
Definition numeric (p : parser) : result (N * parser) :=
  let* (t, p) := pop p in
  match t with TNumeric n => Ok (n, p) | t => Err (UnexpectedToken t) end.
Definition dot (p : parser) : result parser :=
  let* (t, p) := pop p in
  match t with TDot => Ok p | t => Err (UnexpectedToken t) end.
Definition dot_numeric (p : parser) : result (N * parser) :=
  let* p := dot p in numeric p.

(** parser.rs:150-170 *)
Fixpoint identifier_ (fuel : nat) (p : parser) : result (identifier * parser) :=
  match fuel with
  | O => Err OutOfFuel
  | S fuel =>
      let* (t, p) := pop p in
      let* id :=
        match t with
        | TAlphaNumeric s => Ok (AlphaNumeric s)
        | TNumeric n => Ok (Numeric n)
        | t => Err (UnexpectedToken t)
        end in
      match c1 p with
      | Some THyphen =>
          let* (_, p) := pop p in
          let* (id', p) := identifier_ fuel p in
          Ok (concat (concat id (str "-")) (show_identifier id'), p)
      | _ => Ok (id, p)
      end
  end.

(** parser.rs:187-199 *)
Fixpoint more_parts (fuel : nat) (p : parser) : result (list identifier * parser) :=
  match fuel with
  | O => Err OutOfFuel
  | S fuel =>
      match c1 p with
      | Some TDot =>
          let* (_, p) := pop p in
          let* (id, p) := identifier_ fuel p in
          let* (ids, p) := more_parts fuel p in
          Ok (id :: ids, p)
      | _ => Ok ([], p)
      end
  end.
Definition parts (fuel : nat) (p : parser) : result (list identifier * parser) :=
  let* (id, p) := identifier_ fuel p in
  let* (ids, p) := more_parts fuel p in
  Ok (id :: ids, p).

(** parser.rs:175-184 *)
Definition pre_ (fuel : nat) (p : parser) : result (list identifier * parser) :=
  match c1 p with
  | Some THyphen => let* (_, p) := pop p in parts fuel p
  | _ => Ok ([], p)
  end.

(** parser.rs:212-222: the loop; [buffer] is what has been pushed. *)
Fixpoint build_loop (fuel : nat) (buffer : text) (p : parser) : result (text * parser) :=
  match fuel with
  | O => Err OutOfFuel
  | S fuel =>
      match c1 p with
      | None => let* p := advance (input p) in Ok (buffer, p)
      | Some _ =>
          let* (t, p) := pop p in
          match t with
          | TLeadingZero s | TAlphaNumeric s => build_loop fuel (buffer ++ s) p
          | TNumeric n => build_loop fuel (buffer ++ decimal n) p
          | TDot => build_loop fuel (buffer ++ str ".") p
          | t => Err (UnexpectedToken t)
          end
      end
  end.
(** parser.rs:204-229 *)
Definition plus_build_metadata (fuel : nat) (p : parser) : result (option text * parser) :=
  match c1 p with
  | Some TPlus =>
      let* (_, p) := pop p in
      let* (buffer, p) := build_loop fuel [] p in
      match buffer with [] => Err UnexpectedEnd | _ => Ok (Some buffer, p) end
  | _ => Ok (None, p)
  end.

Definition map_err {A} (f : error) (r : result A) : result A :=
  match r with Ok a => Ok a | Err _ => Err f end.

(** parser.rs:234-256 *)
Definition version_ (fuel : nat) (p : parser) : result (version * parser) :=
  let* p := skip_whitespace p in
  let* (major, p) := numeric p in
  let* (minor, p) := map_err (MinorVersionMissing major) (dot_numeric p) in
  let* (patch, p) := map_err (PatchVersionMissing major minor) (dot_numeric p) in
  let* (pre, p) := pre_ fuel p in
  let* (build, p) := plus_build_metadata fuel p in
  let* p := skip_whitespace p in
  Ok (Version major minor patch pre build, p).

(** version.rs:88-102 [Version::parse]; the rest of the input is not kept in the
    error, but lexing it can itself fail. *)
Definition is_eof (p : parser) : bool := match c1 p with None => true | Some _ => false end.
Fixpoint tail_ok (fuel : nat) (s : text) : option error :=
  match fuel with
  | O => Some OutOfFuel
  | S fuel =>
      match lex_next s with
      | None => None
      | Some (Tok _, s) => tail_ok fuel s
      | Some (UnexpectedChar c, _) => Some (Lexer c)
      end
  end.
Definition finish {A} (fuel : nat) (a : A) (p : parser) : result A :=
  if is_eof p then Ok a
  else match tail_ok fuel (input p) with Some e => Err e | None => Err MoreInput end.

(** Loops consume at least a character per turn. *)
Definition fuel_for (s : text) : nat := (length s + 8)%nat.

Definition parse (s : text) : result version :=
  let fuel := fuel_for s in
  let* p := parser_new s in
  let* (v, p) := version_ fuel p in
  finish fuel v p.

(** ** Requirements *)

(** The constructors of [pubgrub::Range] that the parser uses. *)
Inductive range :=
| HigherThan (v : version)            (* [v, oo) *)
| StrictlyLowerThan (v : version)     (* (-oo, v) *)
| Singleton (v : version)
| Union (a b : range)
| Intersection (a b : range).

Definition le (v w : version) : bool := match cmp v w with Gt => false | _ => true end.
Definition lt (v w : version) : bool := match cmp v w with Lt => true | _ => false end.
Definition eq (v w : version) : bool := match cmp v w with Eq => true | _ => false end.

(** [pubgrub::Range::contains] *)
Fixpoint contains (r : range) (x : version) : bool :=
  match r with
  | HigherThan v => le v x
  | StrictlyLowerThan v => lt x v
  | Singleton v => eq x v
  | Union a b => contains a x || contains b x
  | Intersection a b => contains a x && contains b x
  end.

(** parser.rs:282-313 *)
Definition pessimistic (fuel : nat) (p : parser) : result (range * parser) :=
  let* (major, p) := numeric p in
  let* (minor, p) := dot_numeric p in
  let* (patch, included_patch, p) :=
    match c1 p with
    | Some TDot =>
        let* (_, p) := pop p in
        let* (n, p) := numeric p in
        Ok (n, true, p)
    | _ => Ok (0, false, p)
    end in
  let* (pre, p) := pre_ fuel p in
  let* (build, p) := plus_build_metadata fuel p in
  let lower := Version major minor patch pre build in
  let upper := if included_patch : bool then bump_minor lower else bump_major lower in
  Ok (Intersection (HigherThan lower) (StrictlyLowerThan upper), p).

(** parser.rs:318-323: the closure [and] *)
Definition and_ (r : option range) (constraint : range) : option range :=
  Some (match r with None => constraint | Some r => Intersection r constraint end).

(** parser.rs:326-377: one constraint; [None] at the end of the input. *)
Definition constraint (fuel : nat) (p : parser) : result (option range * parser) :=
  let with_version f :=
    let* (_, p) := pop p in
    let* (v, p) := version_ fuel p in
    Ok (Some (f v), p) in
  match c1 p with
  | None => Ok (None, p)
  | Some (TNumeric _) => let* (v, p) := version_ fuel p in Ok (Some (Singleton v), p)
  | Some TEq => with_version (fun v => Singleton v)
  | Some TNotEq =>
      with_version (fun v => Union (StrictlyLowerThan v) (HigherThan (bump_patch v)))
  | Some TGt => with_version (fun v => HigherThan (bump_patch v))
  | Some TGtEq => with_version (fun v => HigherThan v)
  | Some TLt => with_version (fun v => StrictlyLowerThan v)
  | Some TLtEq => with_version (fun v => StrictlyLowerThan (bump_patch v))
  | Some TPessimistic =>
      let* (_, p) := pop p in
      let* p := skip_whitespace p in
      let* (r, p) := pessimistic fuel p in
      Ok (Some r, p)
  | Some _ => let* (t, p) := pop p in Err (UnexpectedToken t)
  end.

(** parser.rs:315-389: the loop, with the range so far. *)
Fixpoint ands_loop (fuel : nat) (r : option range) (p : parser) : result (option range * parser) :=
  match fuel with
  | O => Err OutOfFuel
  | S fuel =>
      let* p := skip_whitespace p in
      let* (c, p) := constraint fuel p in
      match c with
      | None => Ok (r, p)
      | Some c =>
          let r := and_ r c in
          let* p := skip_whitespace p in
          match c1 p with
          | Some TAnd =>
              let* (_, p) := pop p in
              let* p := expect_whitespace p in
              ands_loop fuel r p
          | _ => Ok (r, p)
          end
      end
  end.
Definition ands_section (fuel : nat) (p : parser) : result (range * parser) :=
  let* (r, p) := ands_loop fuel None p in
  let* p := skip_whitespace p in
  match r with Some r => Ok (r, p) | None => Err UnexpectedEnd end.

(** parser.rs:261-280 *)
Fixpoint ors_loop (fuel : nat) (r : option range) (p : parser) : result (range * parser) :=
  match fuel with
  | O => Err OutOfFuel
  | S fuel =>
      let* (c, p) := ands_section fuel p in
      let r := match r with None => c | Some r => Union r c end in
      match c1 p with
      | Some TOr =>
          let* (_, p) := pop p in
          let* p := expect_whitespace p in
          ors_loop fuel (Some r) p
      | _ => Ok (r, p)
      end
  end.
Definition range_ (fuel : nat) (p : parser) : result (range * parser) :=
  let* (r, p) := ors_loop fuel None p in
  let* p := skip_whitespace p in
  Ok (r, p).

(** version.rs:105-119 [Version::parse_range] *)
Definition parse_range (s : text) : result range :=
  let fuel := fuel_for s in
  let* p := parser_new s in
  let* (r, p) := range_ fuel p in
  finish fuel r p.
