(** The part of TOML 1.0 that manifests are written in: a specification of what the crate
    [toml] (not in /repo) reads.

    Read here: comments, blank lines, bare keys, basic strings on one line, arrays over
    several lines with or without a trailing comma, inline tables, table headers of one
    bare key. Keys may not be repeated. Everything else (other escapes than those of one
    character, other kinds of strings, numbers, dates, dotted and quoted keys, arrays of
    tables, `true` and `false`) is answered with [None], which the theorems that say that
    something is read only profit from; the theorems that say that something is not read
    have texts that break the rules of this part. *)
From Coq Require Import NArith List Bool String.
From Verif Require Import Text.
Import ListNotations.
Local Open Scope N_scope.

Inductive toml := Str (s : text) | Array (l : list toml) | Table (l : list (text * toml)).
(** The pairs before the first header, and what follows each header. *)
Record document := Document { root : list (text * toml); tables : list (text * list (text * toml)) }.

Definition blank (c : N) : bool := (c =? 32) || (c =? 9).
Definition control (c : N) : bool := ((c <? 32) && negb (c =? 9)) || (c =? 127).
Fixpoint skip_blanks (s : text) : text :=
  match s with c :: s' => if blank c then skip_blanks s' else s | [] => [] end.
(** Past blanks, ends of lines and comments. *)
Fixpoint skip (comment : bool) (s : text) : text :=
  match s with
  | [] => []
  | c :: s' =>
      if c =? 10 then skip false s'
      else if comment then skip true s'
      else if blank c then skip false s'
      else if c =? 35 then skip true s'
      else s
  end.

Definition escape (c : N) : option N :=
  if c =? 34 then Some 34
  else if c =? 92 then Some 92
  else if c =? 98 then Some 8
  else if c =? 116 then Some 9
  else if c =? 110 then Some 10
  else if c =? 102 then Some 12
  else if c =? 114 then Some 13
  else None.
(** A basic string after its opening quotation mark. *)
Fixpoint string_body (s : text) : option (text * text) :=
  match s with
  | [] => None
  | c :: s =>
      if c =? 34 then Some ([], s)
      else if c =? 92 then
        match s with
        | [] => None
        | e :: s =>
            match escape e, string_body s with
            | Some x, Some (body, rest) => Some (x :: body, rest)
            | _, _ => None
            end
        end
      else if control c then None
      else match string_body s with Some (body, rest) => Some (c :: body, rest) | None => None end
  end.

Definition bare (c : N) : bool := is_alphanumeric c || (c =? 95) || (c =? 45).
Definition key (s : text) : option (text * text) :=
  match span_while bare s with ([], _) => None | (k, rest) => Some (k, rest) end.
(** The sign of equality with the blanks around it. *)
Definition equals (s : text) : option text :=
  match skip_blanks s with 61 :: s => Some (skip_blanks s) | _ => None end.

Fixpoint value (fuel : nat) (s : text) : option (toml * text) :=
  match fuel with
  | O => None
  | S fuel =>
      match s with
      | 34 :: s => match string_body s with Some (body, rest) => Some (Str body, rest) | None => None end
      | 91 :: s => match items fuel (skip false s) with Some (l, rest) => Some (Array l, rest) | None => None end
      | 123 :: s =>
          match skip_blanks s with
          | 125 :: rest => Some (Table [], rest)
          | s => match fields fuel s with Some (l, rest) => Some (Table l, rest) | None => None end
          end
      | _ => None
      end
  end
with items (fuel : nat) (s : text) : option (list toml * text) :=
  match fuel with
  | O => None
  | S fuel =>
      match s with
      | 93 :: rest => Some ([], rest)
      | _ =>
          match value fuel s with
          | None => None
          | Some (v, s) =>
              match skip false s with
              | 93 :: rest => Some ([v], rest)
              | 44 :: s =>
                  match items fuel (skip false s) with Some (l, rest) => Some (v :: l, rest) | None => None end
              | _ => None
              end
          end
      end
  end
with fields (fuel : nat) (s : text) : option (list (text * toml) * text) :=
  match fuel with
  | O => None
  | S fuel =>
      match key s with
      | None => None
      | Some (k, s) =>
          match equals s with
          | None => None
          | Some s =>
              match value fuel s with
              | None => None
              | Some (v, s) =>
                  match skip_blanks s with
                  | 125 :: rest => Some ([(k, v)], rest)
                  | 44 :: s =>
                      match fields fuel (skip_blanks s) with
                      | Some (l, rest) => Some ((k, v) :: l, rest)
                      | None => None
                      end
                  | _ => None
                  end
              end
          end
      end
  end.

(** What may follow a pair or a header on its line. *)
Definition line_end (s : text) : bool :=
  match skip_blanks s with [] => true | c :: _ => (c =? 10) || (c =? 35) end.

Fixpoint lines (fuel : nat) (s : text) : option document :=
  match fuel with
  | O => None
  | S fuel =>
      match skip false s with
      | [] => Some (Document [] [])
      | 91 :: s =>
          match key (skip_blanks s) with
          | None => None
          | Some (k, s) =>
              match skip_blanks s with
              | 93 :: s =>
                  if line_end s then
                    match lines fuel s with
                    | Some d => Some (Document [] ((k, root d) :: tables d))
                    | None => None
                    end
                  else None
              | _ => None
              end
          end
      | s =>
          match key s with
          | None => None
          | Some (k, s) =>
              match equals s with
              | None => None
              | Some s =>
                  match value fuel s with
                  | None => None
                  | Some (v, s) =>
                      if line_end s then
                        match lines fuel s with
                        | Some d => Some (Document ((k, v) :: root d) (tables d))
                        | None => None
                        end
                      else None
                  end
              end
          end
      end
  end.

Fixpoint distinct (l : list text) : bool :=
  match l with [] => true | k :: l => negb (existsb (text_eqb k) l) && distinct l end.
Fixpoint distinct_inside (v : toml) : bool :=
  match v with
  | Str _ => true
  | Array l => forallb distinct_inside l
  | Table l => distinct (map fst l) && forallb (fun e => distinct_inside (snd e)) l
  end.
Definition distinct_keys (d : document) : bool :=
  distinct (map fst (root d) ++ map fst (tables d))
  && distinct_inside (Table (root d))
  && forallb (fun t => distinct_inside (Table (snd t))) (tables d).

Definition parse_toml (s : text) : option document :=
  match lines (S (2 * Datatypes.length s)) s with
  | Some d => if distinct_keys d then Some d else None
  | None => None
  end.
