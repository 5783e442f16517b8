(** Vocabulary for stating properties of the pretty printer, independent of
    how the printer works (no work queue, no loops). *)
From Coq Require Import String Ascii ZArith List Bool.
From Verif Require Import Pretty.
Import ListNotations.
Open Scope string_scope.
Open Scope Z_scope.

(** What a reader sees: pieces of text (with the width they are declared to
    have), line breaks followed by an indentation, and cursor observers. *)
Inductive piece :=
| PText (s : string) (width : Z)
| PNewline (count : nat) (indent : Z)
| PObserver (id : nat).

(** [layout b i d ps]: [ps] is a way to lay [d] out when the nearest enclosing
    group is broken ([b = true]) or flat ([b = false]) and the current
    indentation is [i]. *)
Inductive layout : bool -> Z -> doc -> list piece -> Prop :=
| LyLine b i n : layout b i (Line n) [PNewline n i]
| LyForceBroken b i d ps : layout b i d ps -> layout b i (ForceBroken d) ps
| LyNextBreakFits b i d m ps : layout b i d ps -> layout b i (NextBreakFits d m) ps
| LyBreakFlat i br un k : layout false i (Break br un k) [PText un (slen un)]
| LyBreakBroken i br un k :
    layout true i (Break br un k) [PText br (slen br); PNewline 1 i]
| LyFlexFlat i br un :
    layout true i (Break br un Flex) [PText un (slen un)]
| LyJoin b i x y px py : layout b i x px -> layout b i y py ->
    layout b i (Join x y) (px ++ py)
| LyJoin3 b i x y z px py pz : layout b i x px -> layout b i y py -> layout b i z pz ->
    layout b i (Join3 x y z) (px ++ py ++ pz)
| LyJoin4 b i x y z t px py pz pt :
    layout b i x px -> layout b i y py -> layout b i z pz -> layout b i t pt ->
    layout b i (Join4 x y z t) (px ++ py ++ pz ++ pt)
| LyNestIncrease b i j d ps : layout b (i + j) d ps ->
    layout b i (Nest j Increase Always d) ps
| LyNestSet b i j d ps : layout b j d ps ->
    layout b i (Nest j SetTo Always d) ps
| LyNestIfFlat i j m d ps : layout false i d ps ->
    layout false i (Nest j m IfBroken d) ps
| LyNestIfIncrease i j d ps : layout true (i + j) d ps ->
    layout true i (Nest j Increase IfBroken d) ps
| LyNestIfSet i j d ps : layout true j d ps ->
    layout true i (Nest j SetTo IfBroken d) ps
| LyGroup b b' i d ps : layout b' i d ps -> layout b i (Group d) ps
| LyStr b i s g : layout b i (Str s g) [PText s g]
| LyEcoString b i s g : layout b i (EcoString s g) [PText s g]
| LyZeroWidthString b i s : layout b i (ZeroWidthString s) [PText s 0]
| LyZeroWidthStr b i s : layout b i (ZeroWidthStr s) [PText s 0]
| LyObserver b i id : layout b i (CursorPositionObserver id) [PObserver id]
| LyEmpty b i : layout b i Empty [].

(** The text of a sequence of pieces. *)
Fixpoint render (ps : list piece) : string :=
  match ps with
  | [] => ""
  | PText s _ :: ps => s ++ render ps
  | PNewline n i :: ps => newlines n ++ spaces i ++ render ps
  | PObserver _ :: ps => render ps
  end.

(** Where the cursor is after the pieces, starting from line [l], column [w]. *)
Fixpoint cursor (l w : Z) (ps : list piece) : Z * Z :=
  match ps with
  | [] => (l, w)
  | PText _ g :: ps => cursor l (w + g) ps
  | PNewline n i :: ps => cursor (l + Z.of_nat n) i ps
  | PObserver _ :: ps => cursor l w ps
  end.

(** What each observer is told: the position at which it stands. *)
Fixpoint observations (l w : Z) (ps : list piece) : list (nat * Z * Z) :=
  match ps with
  | [] => []
  | PText _ g :: ps => observations l (w + g) ps
  | PNewline n i :: ps => observations (l + Z.of_nat n) i ps
  | PObserver id :: ps => (id, l, w) :: observations l w ps
  end.

Fixpoint observed (l : list event) : list (nat * Z * Z) :=
  match l with
  | [] => []
  | Write _ :: l => observed l
  | Observe id a b :: l => (id, a, b) :: observed l
  end.

(** Column reached just before the first newline (or the end). *)
Fixpoint first_line_end (w : Z) (ps : list piece) : Z :=
  match ps with
  | [] => w
  | PText _ g :: ps => first_line_end (w + g) ps
  | PNewline _ _ :: _ => w
  | PObserver _ :: ps => first_line_end w ps
  end.

(** Declared widths are never negative (they are counts of graphemes). *)
Fixpoint widths_ok (d : doc) : Prop :=
  match d with
  | Str _ g | EcoString _ g => 0 <= g
  | Line _ | Break _ _ _ | ZeroWidthString _ | ZeroWidthStr _
  | CursorPositionObserver _ | Empty => True
  | ForceBroken d | NextBreakFits d _ | Nest _ _ _ d | Group d => widths_ok d
  | Join a b => widths_ok a /\ widths_ok b
  | Join3 a b c => widths_ok a /\ widths_ok b /\ widths_ok c
  | Join4 a b c d => widths_ok a /\ widths_ok b /\ widths_ok c /\ widths_ok d
  end.

(** No hard line and no forced break anywhere. *)
Fixpoint soft (d : doc) : Prop :=
  match d with
  | Line _ | ForceBroken _ => False
  | Str _ _ | EcoString _ _ | Break _ _ _ | ZeroWidthString _ | ZeroWidthStr _
  | CursorPositionObserver _ | Empty => True
  | NextBreakFits d _ | Nest _ _ _ d | Group d => soft d
  | Join a b => soft a /\ soft b
  | Join3 a b c => soft a /\ soft b /\ soft c
  | Join4 a b c d => soft a /\ soft b /\ soft c /\ soft d
  end.

(** No enabled next-break-fits anywhere. *)
Fixpoint no_next_break_fits (d : doc) : Prop :=
  match d with
  | NextBreakFits _ NBFEnabled => False
  | Line _ | Str _ _ | EcoString _ _ | Break _ _ _ | ZeroWidthString _ | ZeroWidthStr _
  | CursorPositionObserver _ | Empty => True
  | ForceBroken d | NextBreakFits d NBFDisabled | Nest _ _ _ d | Group d => no_next_break_fits d
  | Join a b => no_next_break_fits a /\ no_next_break_fits b
  | Join3 a b c => no_next_break_fits a /\ no_next_break_fits b /\ no_next_break_fits c
  | Join4 a b c d =>
      no_next_break_fits a /\ no_next_break_fits b /\ no_next_break_fits c
      /\ no_next_break_fits d
  end.

(** The document with every break flat, on one line. *)
Fixpoint flat (d : doc) : list piece :=
  match d with
  | Line n => [PNewline n 0]
  | ForceBroken d | NextBreakFits d _ | Nest _ _ _ d | Group d => flat d
  | Break _ un _ => [PText un (slen un)]
  | Join a b => flat a ++ flat b
  | Join3 a b c => flat a ++ flat b ++ flat c
  | Join4 a b c d => flat a ++ flat b ++ flat c ++ flat d
  | Str s g | EcoString s g => [PText s g]
  | ZeroWidthString s | ZeroWidthStr s => [PText s 0]
  | CursorPositionObserver id => [PObserver id]
  | Empty => []
  end.

Definition flat_width (d : doc) : Z := first_line_end 0 (flat d).

(** How the beginning of a document looks to someone who wants to know whether
    it fits on the current line: the width of the text up to the first place
    where the line certainly ends (or the end of the document), and what was
    found there. *)
Inductive ending := AtEnd | AtNewline | AtForcedBreak.

Definition then_ (x y : Z * ending) : Z * ending :=
  match x with
  | (w, AtEnd) => (w + fst y, snd y)
  | _ => x
  end.

(** [lead m d]: in mode [m].  Breaks are flat in a flat mode, end the line in a
    broken one; next-break-fits makes the breaks of its document count as line
    ends unless an enclosing one disabled it. *)
Fixpoint lead (m : mode) (d : doc) : Z * ending :=
  match d with
  | Line _ => (0, AtNewline)
  | ForceBroken d =>
      match m with ForcedBroken => lead m d | _ => (0, AtForcedBreak) end
  | NextBreakFits d NBFDisabled => lead ForcedUnbroken d
  | NextBreakFits d NBFEnabled =>
      lead (match m with ForcedUnbroken => ForcedUnbroken | _ => ForcedBroken end) d
  | Break _ un _ =>
      match m with
      | Broken | ForcedBroken => (0, AtNewline)
      | Unbroken | ForcedUnbroken => (slen un, AtEnd)
      end
  | Join a b => then_ (lead m a) (lead m b)
  | Join3 a b c => then_ (lead m a) (then_ (lead m b) (lead m c))
  | Join4 a b c d => then_ (lead m a) (then_ (lead m b) (then_ (lead m c) (lead m d)))
  | Nest _ _ _ d => lead m d
  | Group d => lead (match m with Broken => Unbroken | _ => m end) d
  | Str _ g | EcoString _ g => (g, AtEnd)
  | ZeroWidthString _ | ZeroWidthStr _ | CursorPositionObserver _ | Empty => (0, AtEnd)
  end.

Fixpoint lead_all (docs : list item) : Z * ending :=
  match docs with
  | [] => (0, AtEnd)
  | (_, m, d) :: rest => then_ (lead m d) (lead_all rest)
  end.

(** The leading text fits after column [w]. *)
Definition fits_after (limit w : Z) (x : Z * ending) : Prop :=
  w + fst x <= limit /\ snd x <> AtForcedBreak.

Fixpoint widths_ok_all (docs : list item) : Prop :=
  match docs with [] => True | (_, _, d) :: rest => widths_ok d /\ widths_ok_all rest end.

Fixpoint index_newline_count (s : string) : Z :=
  match s with
  | "" => 0
  | String c s => (if Ascii.eqb c newline then 1 else 0) + index_newline_count s
  end.

(** Bytes after the last newline of [s], for a text that begins at column [c]. *)
Fixpoint column_after (c : Z) (s : string) : Z :=
  match s with
  | "" => c
  | String x s => column_after (if Ascii.eqb x newline then 0 else c + 1) s
  end.

(** Documents whose declared widths are the byte lengths of their texts, with
    no newline inside texts, no zero-width text and non-negative nesting. *)
Definition plain_text (s : string) (g : Z) : Prop :=
  g = slen s /\ index_newline_count s = 0.
Fixpoint plain (d : doc) : Prop :=
  match d with
  | Str s g | EcoString s g => plain_text s g
  | ZeroWidthString s | ZeroWidthStr s => s = ""
  | Break br un _ => index_newline_count br = 0 /\ index_newline_count un = 0
  | Line n => n <> 0%nat
  | CursorPositionObserver _ | Empty => True
  | Nest i _ _ d => 0 <= i /\ plain d
  | ForceBroken d | NextBreakFits d _ | Group d => plain d
  | Join a b => plain a /\ plain b
  | Join3 a b c => plain a /\ plain b /\ plain c
  | Join4 a b c d => plain a /\ plain b /\ plain c /\ plain d
  end.

(** Running through the events: at every observation, the reported position is
    the real one of the text written before. *)
Fixpoint observed_truly (before : string) (l : list event) : Prop :=
  match l with
  | [] => True
  | Write s :: l => observed_truly (before ++ s) l
  | Observe _ line col :: l =>
      line = index_newline_count before /\ col = column_after 0 before
      /\ observed_truly before l
  end.

(** A forced break that comes before anything that may end the line: no hard
    line and no enabled next-break-fits in front of it. *)
Definition smooth (d : doc) : Prop := soft d /\ no_next_break_fits d.
Inductive forced_early : doc -> Prop :=
| FEHere d : forced_early (ForceBroken d)
| FENextBreakFits d : forced_early d -> forced_early (NextBreakFits d NBFDisabled)
| FENest i m c d : forced_early d -> forced_early (Nest i m c d)
| FEGroup d : forced_early d -> forced_early (Group d)
| FEJoin1 a b : forced_early a -> forced_early (Join a b)
| FEJoin2 a b : smooth a -> forced_early b -> forced_early (Join a b)
| FEJoin3_1 a b c : forced_early a -> forced_early (Join3 a b c)
| FEJoin3_2 a b c : smooth a -> forced_early b -> forced_early (Join3 a b c)
| FEJoin3_3 a b c : smooth a -> smooth b -> forced_early c -> forced_early (Join3 a b c)
| FEJoin4_1 a b c d : forced_early a -> forced_early (Join4 a b c d)
| FEJoin4_2 a b c d : smooth a -> forced_early b -> forced_early (Join4 a b c d)
| FEJoin4_3 a b c d : smooth a -> smooth b -> forced_early c -> forced_early (Join4 a b c d)
| FEJoin4_4 a b c d :
    smooth a -> smooth b -> smooth c -> forced_early d -> forced_early (Join4 a b c d).

(** A list of documents at one indentation and mode. *)
Definition at_level (i : Z) (m : mode) (ds : list doc) : list item :=
  map (fun d => (i, m, d)) ds.

(** Elements with the separator between each two. *)
Fixpoint intersperse {A} (sep : A) (l : list A) : list A :=
  match l with
  | [] => []
  | x :: l => match l with [] => [x] | _ => x :: sep :: intersperse sep l end
  end.

(** No break and no hard line. *)
Fixpoint lineless (d : doc) : Prop :=
  match d with
  | Line _ | Break _ _ _ => False
  | Str _ _ | EcoString _ _ | ZeroWidthString _ | ZeroWidthStr _
  | CursorPositionObserver _ | Empty => True
  | ForceBroken d | NextBreakFits d _ | Nest _ _ _ d | Group d => lineless d
  | Join a b => lineless a /\ lineless b
  | Join3 a b c => lineless a /\ lineless b /\ lineless c
  | Join4 a b c d => lineless a /\ lineless b /\ lineless c /\ lineless d
  end.
