(** manifest.toml as text: compiler-core/src/manifest.rs, compiler-core/src/requirement.rs and
    what they use of io.rs and config.rs.

    [to_toml] is the text that [write_manifest_to_disc] (compiler-cli/src/dependencies.rs:622-625)
    writes, [read_manifest] what [read_manifest_from_disc] (609-620) makes of the document that
    the crate [toml] reads (Toml.v). The code that serde derives is modelled from the
    attributes: a field without [default] must be there, fields that the type does not have
    are ignored unless it has [deny_unknown_fields].

    Simplifications: a range is the text it was made of, which is what it prints as
    (hexpm/src/version.rs keeps it), a path is its text, as on Unix; the maps from names are
    lists of pairs in the order in which they are iterated. [pathdiff::diff_utf8_paths] is
    not in /repo: [diff] follows its documentation. The path of the project is absolute and
    has no parts that lead up: the code stops otherwise (io.rs:46, 57-58). *)
From Coq Require Import String NArith List Bool.
From Verif Require Import Text Version Toml.
Import ListNotations.
Local Open Scope list_scope.
Local Open Scope N_scope.

(** manifest.rs:243-262 *)
Inductive source :=
| FromHex (outer_checksum : list N)
| FromGit (repo commit : text) (path : option text)
| FromLocal (path : text).
(** manifest.rs:181-196 *)
Record package := Package {
  name : text; at_version : version; build_tools : list text; otp_app : option text;
  needs : list text; from : source }.
(** requirement.rs:17-36 *)
Inductive requirement := Hex (range : text) | Path (path : text) | Git (git ref : text) (path : option text).
(** manifest.rs:15-24 *)
Record manifest := Manifest { requirements : list (text * requirement); packages : list package }.

(** ** Paths *)

(** [Utf8Path::components]: a leading "/" aside, which [is_absolute] tells. *)
Fixpoint pieces (s : text) : list text :=
  match s with
  | [] => [[]]
  | c :: s =>
      if c =? 47 then [] :: pieces s
      else match pieces s with p :: l => (c :: p) :: l | [] => [[c]] end
  end.
Definition real_piece (p : text) : bool := negb (text_eqb p []) && negb (text_eqb p (str ".")).
Definition components (s : text) : list text := filter real_piece (pieces s).
Definition is_absolute (s : text) : bool := starts_with (str "/") s.
Fixpoint join (l : list text) : text :=
  match l with [] => [] | [p] => p | p :: l => p ++ str "/" ++ join l end.
(** [pathdiff::diff_utf8_paths] of absolute paths. *)
Fixpoint diff (path base : list text) : list text :=
  match path, base with
  | p :: path', b :: base' =>
      if text_eqb p b then diff path' base' else map (fun _ => str "..") base ++ path
  | _, [] => path
  | [], _ => map (fun _ => str "..") base
  end.
(** io.rs:45-62, on Unix *)
Definition make_relative (source_path target_path : text) : text :=
  if is_absolute target_path then join (diff (components target_path) (components source_path))
  else target_path.
(** [str::replace('\\', "/")] *)
Definition with_slashes (s : text) : text := map (fun c => if c =? 92 then 47 else c) s.
(** io.rs:23-38, on Unix *)
Definition validate_safe_relative_path (path : text) : bool :=
  negb (is_absolute path) && negb (existsb (text_eqb (str "..")) (components path)).

(** ** Writing *)

(** [base16::encode_upper], manifest.rs:138-141 *)
Definition hex_digit (d : N) : N := if d <? 10 then 48 + d else 55 + d.
Definition base_16_encoded_string (bytes : list N) : text :=
  flat_map (fun b => [hex_digit (b / 16); hex_digit (b mod 16)]) bytes.

(** [sorted_by] with a comparison of names: stable. *)
Section Sort.
  Context {A : Type} (key : A -> text).
  Fixpoint insert_by (a : A) (l : list A) : list A :=
    match l with
    | [] => [a]
    | b :: l => match text_cmp (key a) (key b) with Gt => b :: insert_by a l | _ => a :: b :: l end
    end.
  Definition sorted_by (l : list A) : list A := fold_right insert_by [] l.
End Sort.

Definition quoted (s : text) : text := [34] ++ s ++ [34].
(** manifest.rs:67-74, 77-84: the loops with [enumerate]. *)
Fixpoint strings_from (i : nat) (l : list text) : text :=
  match l with
  | [] => []
  | s :: l => (match i with O => [] | _ => str ", " end) ++ quoted s ++ strings_from (S i) l
  end.

(** manifest.rs:87-91 *)
Definition otp_app_to_toml (app : option text) : text :=
  match app with Some app => str ", otp_app = " ++ quoted app | None => [] end.
(** manifest.rs:93-116 *)
Definition source_to_toml (root_path : text) (s : source) : text :=
  match s with
  | FromHex outer_checksum =>
      str ", source = ""hex"", outer_checksum = " ++ quoted (base_16_encoded_string outer_checksum)
  | FromGit repo commit path =>
      str ", source = ""git"", repo = " ++ quoted repo ++ str ", commit = " ++ quoted commit
      ++ match path with Some path => str ", path = " ++ quoted (with_slashes path) | None => [] end
  | FromLocal path =>
      str ", source = ""local"", path = " ++ quoted (with_slashes (make_relative root_path path))
  end.
(** manifest.rs:52-119: the body of the loop over packages. *)
Definition package_to_toml (root_path : text) (p : package) : text :=
  str "  {" ++ str " name = " ++ quoted (name p) ++ str ", version = " ++ quoted (show (at_version p))
  ++ str ", build_tools = [" ++ strings_from 0 (build_tools p)
  ++ str "], requirements = [" ++ strings_from 0 (sorted_by (fun s => s) (needs p)) ++ str "]"
  ++ otp_app_to_toml (otp_app p) ++ source_to_toml root_path (from p) ++ str " }," ++ [10].
(** requirement.rs:70-92 *)
Definition requirement_to_toml (root_path : text) (r : requirement) : text :=
  match r with
  | Hex range => str "{ version = " ++ quoted range ++ str " }"
  | Path path => str "{ path = " ++ quoted (with_slashes (make_relative root_path path)) ++ str " }"
  | Git url ref path =>
      match path with
      | Some path =>
          str "{ git = " ++ quoted url ++ str ", ref = " ++ quoted ref
          ++ str ", path = " ++ quoted (with_slashes path) ++ str " }"
      | None => str "{ git = " ++ quoted url ++ str ", ref = " ++ quoted ref ++ str " }"
      end
  end.
(** manifest.rs:38-48 *)
Definition header : text :=
  str "# Do not manually edit this file, it is managed by Gleam." ++ [10]
  ++ str "#" ++ [10]
  ++ str "# This file locks the dependency versions used, to make your build" ++ [10]
  ++ str "# deterministic and to prevent unexpected versions from being included" ++ [10]
  ++ str "# in your application." ++ [10]
  ++ str "#" ++ [10]
  ++ str "# You should check this file into your source control repository." ++ [10]
  ++ [10].
(** manifest.rs:31-132 *)
Definition to_toml (root_path : text) (m : manifest) : text :=
  header ++ str "packages = [" ++ [10]
  ++ flat_map (package_to_toml root_path) (sorted_by name (packages m))
  ++ str "]" ++ [10] ++ [10] ++ str "[requirements]" ++ [10]
  ++ flat_map (fun e => fst e ++ str " = " ++ requirement_to_toml root_path (snd e) ++ [10])
       (sorted_by fst (requirements m)).

(** ** Reading *)

Fixpoint field (k : text) (l : list (text * toml)) : option toml :=
  match l with [] => None | (x, v) :: l => if text_eqb x k then Some v else field k l end.
Definition string_at (k : text) (l : list (text * toml)) : option text :=
  match field k l with Some (Str s) => Some s | _ => None end.
Fixpoint all {A B} (f : A -> option B) (l : list A) : option (list B) :=
  match l with
  | [] => Some []
  | a :: l => match f a, all f l with Some b, Some bs => Some (b :: bs) | _, _ => None end
  end.
Definition strings_at (k : text) (l : list (text * toml)) : option (list text) :=
  match field k l with
  | Some (Array vs) => all (fun v => match v with Str s => Some s | _ => None end) vs
  | _ => None
  end.
(** A field that need not be there, but is a string that passes [ok] if it is. *)
Definition optional (ok : text -> bool) (k : text) (l : list (text * toml)) : option (option text) :=
  match field k l with
  | None => Some None
  | Some (Str s) => if ok s then Some (Some s) else None
  | Some _ => None
  end.

(** config.rs:1236-1240 *)
Definition is_valid_package_name (s : text) : bool :=
  match s with
  | [] => false
  | c :: s => is_lower c && forallb (fun c => is_lower c || is_digit c || (c =? 95)) s
  end.

(** [base16::decode], manifest.rs:171-178: digits of either case *)
Definition hex_value (c : N) : option N :=
  if is_digit c then Some (c - 48)
  else if (65 <=? c) && (c <=? 70) then Some (c - 55)
  else if (97 <=? c) && (c <=? 102) then Some (c - 87)
  else None.
Fixpoint base_16_decode (s : text) : option (list N) :=
  match s with
  | [] => Some []
  | [_] => None
  | a :: b :: s =>
      match hex_value a, hex_value b, base_16_decode s with
      | Some x, Some y, Some l => Some (16 * x + y :: l)
      | _, _, _ => None
      end
  end.

(** manifest.rs:243-262, config.rs:1034-1043 *)
Definition read_source (l : list (text * toml)) : option source :=
  match string_at (str "source") l with
  | None => None
  | Some kind =>
      if text_eqb kind (str "hex") then
        match string_at (str "outer_checksum") l with
        | Some s => match base_16_decode s with Some bytes => Some (FromHex bytes) | None => None end
        | None => None
        end
      else if text_eqb kind (str "git") then
        match string_at (str "repo") l, string_at (str "commit") l,
              optional validate_safe_relative_path (str "path") l with
        | Some repo, Some commit, Some path => Some (FromGit repo commit path)
        | _, _, _ => None
        end
      else if text_eqb kind (str "local") then
        match string_at (str "path") l with Some path => Some (FromLocal path) | None => None end
      else None
  end.
(** manifest.rs:181-196, config.rs:1129-1194 *)
Definition read_package (v : toml) : option package :=
  match v with
  | Table l =>
      match string_at (str "name") l, string_at (str "version") l, strings_at (str "build_tools") l,
            optional is_valid_package_name (str "otp_app") l, strings_at (str "requirements") l, read_source l with
      | Some n, Some v, Some tools, Some app, Some needs, Some src =>
          if is_valid_package_name n then
            match parse v with Ok v => Some (Package n v tools app needs src) | Err _ => None end
          else None
      | _, _, _, _, _, _ => None
      end
  | _ => None
  end.

(** requirement.rs:125-131 with 39-48 *)
Definition read_range (s : text) : option requirement :=
  match parse_range s with Ok _ => Some (Hex s) | Err _ => None end.
Definition only (allowed : list text) (l : list (text * toml)) : bool :=
  forallb (fun e => existsb (text_eqb (fst e)) allowed) l.
Definition or_else {A} (a b : option A) : option A := match a with Some x => Some x | None => b end.
(** requirement.rs:18 [untagged, deny_unknown_fields]: the first variant that fits. *)
Definition untagged (l : list (text * toml)) : option requirement :=
  or_else
    (if only [str "version"] l then
       match string_at (str "version") l with Some s => read_range s | None => None end
     else None)
    (or_else
       (if only [str "path"] l then match string_at (str "path") l with Some s => Some (Path s) | None => None end
        else None)
       (if only [str "git"; str "ref"; str "path"] l then
          match string_at (str "git") l, string_at (str "ref") l, optional (fun _ => true) (str "path") l with
          | Some git, Some ref, Some path => Some (Git git ref path)
          | _, _, _ => None
          end
        else None)).
(** requirement.rs:171-188 *)
Definition safe_path (r : requirement) : option requirement :=
  match r with
  | Git _ _ (Some path) =>
      if text_eqb path [] then None
      else if validate_safe_relative_path path then Some r else None
  | _ => Some r
  end.
(** requirement.rs:146-188 *)
Definition read_requirement (v : toml) : option requirement :=
  match match v with Str s => read_range s | Table l => untagged l | Array _ => None end with
  | Some r => safe_path r
  | None => None
  end.
(** config.rs:1196-1231 *)
Definition read_entry (e : text * toml) : option (text * requirement) :=
  if is_valid_package_name (fst e) then
    match read_requirement (snd e) with Some r => Some (fst e, r) | None => None end
  else None.

(** Top level keys and tables with a header are found in the same way. *)
Definition top_level (d : document) : list (text * toml) :=
  root d ++ map (fun t => (fst t, Table (snd t))) (tables d).
(** manifest.rs:15-24 *)
Definition read_document (d : document) : option manifest :=
  match field (str "requirements") (top_level d), field (str "packages") (top_level d) with
  | Some (Table rs), Some (Array ps) =>
      match all read_entry rs, all read_package ps with
      | Some rs, Some ps => Some (Manifest rs ps)
      | _, _ => None
      end
  | _, _ => None
  end.
Definition read_manifest (s : text) : option manifest :=
  match parse_toml s with Some d => read_document d | None => None end.
