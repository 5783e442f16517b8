(** What files of a project make, which of them conflict, and what a build directory should hold. *)
From Coq Require Import NArith Bool String List.
From Verif Require Import Text VersionSpec Native.
Import ListNotations.
Local Open Scope list_scope.

(** [dot] is 46, [/] is 47 and [@] is 64. *)
Definition named (ds : list text) (stem ext : text) (p : path) : Prop :=
  p = Path ds (stem ++ 46%N :: ext) /\ stem <> [] /\ ~ In 46%N ext.
Definition kind (ext : string) (p : path) : Prop := exists ds stem, named ds stem (str ext) p.
(** Names in a file system. *)
Definition name_of_file (t : text) : Prop := t <> [] /\ ~ In 47%N t.
Definition proper (p : path) : Prop := Forall name_of_file (directories p) /\ name_of_file (file_name p).

Definition native (p : path) : Prop :=
  exists e, In e ["erl"; "hrl"; "ex"; "js"; "mjs"; "cjs"; "jsx"; "ts"; "mts"; "cts"; "tsx"]%string /\ kind e p.
Definition beam (p : path) : Prop := kind "erl" p \/ kind "ex" p.

(** ** What is made of a file: itself in the build directory, a JavaScript module there, a module of Erlang. *)
Inductive output := Itself (p : path) | JavaScript (p : path) | Erlang (module : text).
Definition joined (separator : text) (l : list text) : text :=
  match l with
  | [] => []
  | t :: l => t ++ concat (map (fun t => separator ++ t) l)
  end.
Inductive makes (check : bool) : path -> output -> Prop :=
  | makes_itself p : native p -> makes check p (Itself p)
  | makes_mjs p : kind "mjs" p -> makes check p (JavaScript p)
  | makes_gleam_mjs ds stem p : named ds stem (str "gleam") p ->
      makes check p (JavaScript (Path ds (stem ++ str ".mjs")))
  | makes_erl ds stem p : named ds stem (str "erl") p -> makes check p (Erlang stem)
  | makes_gleam_erl ds stem p : check = true -> named ds stem (str "gleam") p ->
      makes check p (Erlang (joined (str "@") (ds ++ [stem]))).
Definition conflict (check : bool) (f g : file) : Prop :=
  exists o, makes check (relative f) o /\ makes check (relative g) o.
(** What is said of two files that conflict. *)
Inductive reported (check : bool) : error -> path -> path -> Prop :=
  | reported_same p : native p -> reported check (DuplicateSourceFile (joined (str "/") (directories p ++ [file_name p]))) p p
  | reported_clash p q ds stem g n : named ds stem (str "gleam") g -> (p = g /\ q = n) \/ (p = n /\ q = g) ->
      reported check (ClashingGleamModuleAndNativeFileName (joined (str "/") (ds ++ [stem])) g n) p q
  | reported_erlang ds ds' stem p q : named ds stem (str "erl") p -> named ds' stem (str "erl") q ->
      reported check (DuplicateNativeErlangModule stem p q) p q.

(** ** Copies *)

(** The copy of a file is missing, or older. *)
Definition outdated (d : files) (f : file) : Prop :=
  forall x t, In (relative f, (x, t)) d -> (t < modified f)%N.
Definition copied (now : N) (l : list file) (d d' : files) : Prop :=
  NoDup (map fst d')
  /\ forall p x t, In (p, (x, t)) d' <->
       (exists f, In f l /\ native (relative f) /\ outdated d f /\ relative f = p /\ content f = x /\ now = t)
       \/ In (p, (x, t)) d /\ ~ exists f, In f l /\ native (relative f) /\ outdated d f /\ relative f = p.
(** The order of paths, by what is between the slashes. *)
Definition path_lt (p q : path) : Prop :=
  dictionary (dictionary N.lt) (directories p ++ [file_name p]) (directories q ++ [file_name q]).
(** Every native file is in the build directory as it is in the project. *)
Definition up_to_date (l : list file) (d : files) : Prop :=
  forall f, In f l -> native (relative f) -> exists t, In (relative f, (content f, t)) d.
(** And the build directory has no other native files. *)
Definition exact_copies (l : list file) (d : files) : Prop :=
  forall p x, native p -> ((exists t, In (p, (x, t)) d) <-> exists f, In f l /\ relative f = p /\ content f = x).
(** The bytecode of every file is that of its content. *)
Definition all_compiled (l : list file) (b : built) : Prop :=
  forall f, In f l -> beam (relative f) ->
    In (relative f, content f) (compiled b) /\ forall x, In (relative f, x) (compiled b) -> x = content f.

(** ** Projects and builds one after another *)
Definition well_named (l : list file) : Prop := Forall (fun f => proper (relative f)) l.

(** Builds of a project that is edited between them, at any times. *)
Inductive history (check : bool) : list file -> built -> bool -> Prop :=
  | history_start l : well_named l -> history check l (Built [] []) true
  | history_edit l b ok l' : history check l b ok -> well_named l' -> history check l' b ok
  | history_build l b ok compiles now b' ok' :
      history check l b ok -> build check compiles now l b = (b', ok') -> history check l b' ok'.

(** The same with a clock: what is edited gets the time of the edit, which is later than all
    before. [clean] if no build met a conflict, [ok] if none failed. *)
Definition conflict_free (check : bool) (l : list file) : Prop := ForallOrdPairs (fun f g => ~ conflict check f g) l.
Inductive timely (check : bool) : list file -> built -> N -> bool -> bool -> Prop :=
  | timely_start l now : well_named l -> timely check l (Built [] []) now true true
  | timely_edit l b now clean ok l' now' : timely check l b now clean ok -> well_named l' -> (now < now')%N ->
      (forall f, In f l' -> In f l \/ modified f = now') -> timely check l' b now' clean ok
  | timely_build l b now clean ok free compiles now' b' ok' : timely check l b now clean ok -> (now < now')%N ->
      (free = true -> conflict_free check l) ->
      build check compiles now' l b = (b', ok') -> timely check l b' now' (clean && free) (ok && ok').
