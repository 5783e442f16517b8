(** What versions and requirements are, independently of the parser. *)
From Coq Require Import NArith Bool String List.
From Verif Require Import Text Version.
Import ListNotations.
Open Scope N_scope.

(** ** Precedence, from semver.org item 11 *)

(** Dictionary order. *)
Inductive dictionary {A} (lt : A -> A -> Prop) : list A -> list A -> Prop :=
| dict_shorter x m : dictionary lt [] (x :: m)
| dict_here a b l m : lt a b -> dictionary lt (a :: l) (b :: m)
| dict_there a l m : dictionary lt l m -> dictionary lt (a :: l) (a :: m).

Inductive identifier_lt : identifier -> identifier -> Prop :=
| numbers_numerically n m : n < m -> identifier_lt (Numeric n) (Numeric m)
| numbers_below_words n s : identifier_lt (Numeric n) (AlphaNumeric s)
| words_alphabetically s t : dictionary N.lt s t -> identifier_lt (AlphaNumeric s) (AlphaNumeric t).

Inductive precedes : version -> version -> Prop :=
| by_major v w : major v < major w -> precedes v w
| by_minor v w : major v = major w -> minor v < minor w -> precedes v w
| by_patch v w : major v = major w -> minor v = minor w -> patch v < patch w -> precedes v w
| prerelease_first v w :
    major v = major w -> minor v = minor w -> patch v = patch w ->
    pre v <> [] -> pre w = [] -> precedes v w
| by_prerelease v w :
    major v = major w -> minor v = minor w -> patch v = patch w ->
    pre v <> [] -> pre w <> [] -> dictionary identifier_lt (pre v) (pre w) -> precedes v w.

(** Equal but for the build metadata. *)
Definition same_precedence (v w : version) : Prop :=
  major v = major w /\ minor v = minor w /\ patch v = patch w /\ pre v = pre w.

(** ** Texts *)
Definition blank (s : text) : Prop := Forall (fun c => is_whitespace c = true) s.
Definition alphanumeric (s : text) : Prop := Forall (fun c => is_alphanumeric c = true) s.

(** The code reserves the words [or] and [and] wherever a component begins. *)
Definition not_keyword (s : text) : Prop :=
  starts_with (str "or") s = false /\ starts_with (str "and") s = false.

(** A u32 written with superfluous leading zeros. *)
Definition padded_number (s : text) : Prop :=
  exists r, s = 48 :: r /\ r <> [] /\ Forall (fun c => is_digit c = true) s /\ decimal_value s < 2 ^ 32.

Definition legal_piece (s : text) : Prop :=
  s <> [] /\ alphanumeric s /\ not_keyword s /\ ~ padded_number s.

Inductive hyphenated : text -> Prop :=
| one_piece s : legal_piece s -> hyphenated s
| more_pieces s r : legal_piece s -> hyphenated r -> hyphenated (s ++ str "-" ++ r).

Definition legal_identifier (i : identifier) : Prop :=
  match i with
  | Numeric n => n < 2 ^ 32
  | AlphaNumeric s => hyphenated s /\ (forall n, n < 2 ^ 32 -> s <> decimal n)
  end.

Inductive dotted : text -> Prop :=
| one_part s : alphanumeric s -> not_keyword s -> dotted s
| more_parts_ s r : alphanumeric s -> not_keyword s -> dotted r -> dotted (s ++ str "." ++ r).

Definition legal_version (v : version) : Prop :=
  major v < 2 ^ 32 /\ minor v < 2 ^ 32 /\ patch v < 2 ^ 32
  /\ Forall legal_identifier (pre v)
  /\ match build v with None => True | Some b => b <> [] /\ dotted b end.

(** ** Requirements *)
Inductive operator := OpEq | OpNotEq | OpGt | OpGtEq | OpLt | OpLtEq.
Inductive clause :=
| Compare (op : operator) (v : version)
| Tilde (v : version)         (* ~> 1.2.3 *)
| TildeMinor (v : version).   (* ~> 1.2, the patch of [v] being 0 *)

Definition clause_version (c : clause) : version :=
  match c with Compare _ v | Tilde v | TildeMinor v => v end.

(** Any alternative of which all clauses hold. *)
Definition requirement := list (list clause).

Definition operator_text (op : operator) : text :=
  str (match op with
       | OpEq => "==" | OpNotEq => "!=" | OpGt => ">" | OpGtEq => ">=" | OpLt => "<" | OpLtEq => "<="
       end).

Definition pre_text (v : version) : text :=
  if is_pre v then (str "-" ++ show_dotted (pre v))%list else [].

(** The ways of writing a requirement. *)
Inductive clause_text : clause -> text -> Prop :=
| bare_version v : clause_text (Compare OpEq v) (show v)
| operator_version op w v : blank w -> clause_text (Compare op v) (operator_text op ++ w ++ show v)
| tilde_version w v : blank w -> clause_text (Tilde v) (str "~>" ++ w ++ show v)
| tilde_minor w v : blank w -> patch v = 0 ->
    clause_text (TildeMinor v)
      (str "~>" ++ w ++ decimal (major v) ++ str "." ++ decimal (minor v) ++ pre_text v).

Inductive all_text : list clause -> text -> Prop :=
| all_one c s : clause_text c s -> all_text [c] s
| all_more c cs s w1 w2 r :
    clause_text c s -> blank w1 -> w1 <> [] -> blank w2 -> w2 <> [] -> all_text cs r ->
    all_text (c :: cs) (s ++ w1 ++ str "and" ++ w2 ++ r).

Inductive any_text : requirement -> text -> Prop :=
| any_one cs s : all_text cs s -> any_text [cs] s
| any_more cs req s w1 w2 r :
    all_text cs s -> blank w1 -> w1 <> [] -> blank w2 -> w2 <> [] -> any_text req r ->
    any_text (cs :: req) (s ++ w1 ++ str "or" ++ w2 ++ r).

Definition requirement_text (req : requirement) (s : text) : Prop :=
  exists w1 r w2, s = (w1 ++ r ++ w2)%list /\ blank w1 /\ blank w2 /\ any_text req r.

Definition all_clauses (P : clause -> Prop) (req : requirement) : Prop := Forall (Forall P) req.

(** Meaning, from the Hex documentation. *)
Definition next_minor (v : version) := Version (major v) (minor v + 1) 0 [] None.
Definition next_major (v : version) := Version (major v + 1) 0 0 [] None.
Definition satisfies_clause (x : version) (c : clause) : Prop :=
  match c with
  | Compare OpEq v => same_precedence x v
  | Compare OpNotEq v => ~ same_precedence x v
  | Compare OpGt v => precedes v x
  | Compare OpGtEq v => ~ precedes x v
  | Compare OpLt v => precedes x v
  | Compare OpLtEq v => ~ precedes v x
  | Tilde v => ~ precedes x v /\ precedes x (next_minor v)
  | TildeMinor v => ~ precedes x v /\ precedes x (next_major v)
  end.
Definition satisfies (x : version) (req : requirement) : Prop :=
  Exists (Forall (satisfies_clause x)) req.

(** Written without build metadata; every number small enough for a successor. *)
Definition ordinary (c : clause) : Prop :=
  let v := clause_version c in
  legal_version v /\ build v = None
  /\ major v + 1 < 2 ^ 32 /\ minor v + 1 < 2 ^ 32 /\ patch v + 1 < 2 ^ 32.

(** [x] is not strictly between [v] and the next patch release in a [>], [<=] or
    [!=] clause.  Only pre-releases can be there. *)
Definition next_patch (v : version) := Version (major v) (minor v) (patch v + 1) [] None.
Definition not_in_between (x : version) (c : clause) : Prop :=
  match c with
  | Compare OpGt v | Compare OpLtEq v | Compare OpNotEq v => ~ (precedes v x /\ precedes x (next_patch v))
  | _ => True
  end.
