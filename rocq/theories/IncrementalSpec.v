(** What incremental builds should do.

    Of [Incremental] only the types, the maps and the result of a build are used. *)
From Coq Require Import NArith Bool List.
From Verif Require Import Text Incremental.
Import ListNotations.

(** ** One run of the loader *)

(** There is metadata [m] of module [n]. *)
Definition recorded (s : store) (n : text) (m : meta) : Prop := get n (metas s) = Some m.

(** The cache of a file may be used: code was generated if that is needed, and the file is not
    newer than the cache or has the same hash.  The language server does not trust the hash if
    the module had errors since. *)
Definition usable (w : world) (codegen_required lsp : bool) (incomplete : list text) (s : store) (f : file) : Prop :=
  exists m, recorded s (f_name f) m
    /\ (codegen_required = true -> m_codegen m = true)
    /\ ((f_mtime f <= m_mtime m)%N
        \/ (m_fingerprint m = fingerprint w (c_text (f_content f))
            /\ ~ (lsp = true /\ In (f_name f) incomplete))).

(** A module whose file is gone. *)
Definition gone (s : store) (fs : list file) (n : text) : Prop :=
  (exists m, recorded s n m) /\ ~ In n (map f_name fs).

(** The modules that have to be compiled again, when the modules of earlier packages in [stale]
    have been compiled or removed. *)
Inductive recompiled (w : world) (codegen_required lsp : bool) (incomplete : list text) (s : store)
    (stale : list text) (fs : list file) : text -> Prop :=
| unusable_cache f :
    In f fs -> ~ usable w codegen_required lsp incomplete s f ->
    recompiled w codegen_required lsp incomplete s stale fs (f_name f)
| stale_import f m d :
    In f fs -> usable w codegen_required lsp incomplete s f -> recorded s (f_name f) m -> In d (m_imports m) ->
    In d stale \/ gone s fs d ->
    recompiled w codegen_required lsp incomplete s stale fs (f_name f)
| recompiled_import f m d :
    In f fs -> usable w codegen_required lsp incomplete s f -> recorded s (f_name f) m -> In d (m_imports m) ->
    recompiled w codegen_required lsp incomplete s stale fs d ->
    recompiled w codegen_required lsp incomplete s stale fs (f_name f).

(** The source of a file, read. *)
Definition read (w : world) (f : file) (u : uncompiled) : Prop :=
  u_name u = f_name f /\ u_mtime u = f_mtime f /\ u_content u = f_content f
  /\ parse w (c_text (f_content f)) = Some (u_imports u).

(** ** Current artefacts *)
Definition artefact_name (a : artefact) : text := match a with Compiled n _ _ => n end.

(** What module of the [k]-th package was compiled from: the files that are there now, of this
    package and the packages before. *)
Inductive current (w : world) (ps : list package) : nat -> artefact -> Prop :=
| current_module k p fs f imported :
    nth_error ps k = Some (p, fs) -> In f fs ->
    parse w (c_text (f_content f)) = Some (map fst imported) ->
    (forall d a, In (d, a) imported -> artefact_name a = d /\ exists j, j <= k /\ current w ps j a) ->
    current w ps k (Compiled (f_name f) (f_content f) imported).

(** ** Histories *)

(** How a build may end so that the next ones can rely on the caches: it succeeds or leaves
    the caches alone, or the modules of the root package have errors. *)
Definition harmless (r : build_result) : Prop := b_result r = inl tt \/ b_ops r = [].
Definition root_errors (ps : list package) (r : build_result) : Prop :=
  exists (others : list package) p fs, ps = (others ++ [(p, fs)])%list
    /\ ((exists failed skipped, b_result r = inr (p, TypeErrors failed skipped)) \/ b_result r = inr (p, CodegenError)).

(** [f] is a file of package [p]. *)
Definition has_file (st : state) (p : text) (f : file) : Prop :=
  exists fs, In (p, fs) (packages st) /\ In f fs.

(** Histories of builds by the command line: every build is done by a new compiler and none is
    interrupted.  Files get newer whenever they are written, and the hash tells their
    contents apart ([past] is what has been written).  All builds but the last are harmless
    or have errors in the root package.  After such errors no file gets a content back that it
    had before them ([retired]), and if code was to be generated, it is in all later builds
    ([must_generate]). *)
Fixpoint careful (w : world) (st : state) (past : list (text * file)) (retired : text -> text -> content -> Prop)
    (must_generate : bool) (es : list event) : Prop :=
  match es with
  | [] => True
  | Write p f :: es =>
      (forall g, In (p, g) past -> f_name g = f_name f ->
         (f_mtime g < f_mtime f)%N
         /\ (fingerprint w (c_text (f_content g)) = fingerprint w (c_text (f_content f)) -> f_content g = f_content f))
      /\ ~ retired p (f_name f) (f_content f)
      /\ careful w (step w st (Write p f)) ((p, f) :: past) retired must_generate es
  | Remove p o n :: es => careful w (step w st (Remove p o n)) past retired must_generate es
  | Start :: es => careful w (step w st Start) past retired must_generate es
  | Build c lsp :: es =>
      lsp = false
      /\ compiler st = new_compiler
      /\ (must_generate = true -> should_codegen c true = true)
      /\ (es = []
          \/ (harmless (built w st c lsp)
              /\ careful w (step w st (Build c lsp)) past retired must_generate es)
          \/ (root_errors (packages st) (built w st c lsp)
              /\ careful w (step w st (Build c lsp)) past
                   (fun p n x =>
                      retired p n x
                      \/ ((exists g, In (p, g) past /\ f_name g = n /\ f_content g = x)
                          /\ (forall f, has_file st p f -> f_name f = n -> f_content f <> x)))
                   (must_generate || should_codegen c true) es))
  | Interrupted _ _ _ :: _ => False
  end.
Definition careful_history (w : world) (ps : list text) (es : list event) : Prop :=
  careful w (start ps) [] (fun _ _ _ => False) false es.

(** The same state with nothing built. *)
Definition cleaned (st : state) : state :=
  {| packages := packages st; caches_of := fun _ => empty; compiler := compiler st |}.

(** The imports the loader knows: those in the metadata if the cache is usable, else those in
    the source. *)
Definition known_imports (w : world) (codegen_required lsp : bool) (incomplete : list text) (s : store) (f : file)
    (l : list text) : Prop :=
  (usable w codegen_required lsp incomplete s f /\ exists m, recorded s (f_name f) m /\ l = m_imports m)
  \/ (~ usable w codegen_required lsp incomplete s f /\ parse w (c_text (f_content f)) = Some l).

(** What is loaded from caches is current. *)
Definition loads_current (w : world) (st : state) (c : codegen) (lsp : bool) : Prop :=
  forall p cached n a, In (p, cached) (b_cached (built w st c lsp)) -> In (n, a) cached ->
  exists k fs, nth_error (packages st) k = Some (p, fs) /\ artefact_name a = n /\ current w (packages st) k a.
(** A build gives what a build without caches gives. *)
Definition same_as_clean (w : world) (st : state) (c : codegen) (lsp : bool) : Prop :=
  b_result (built w st c lsp) = b_result (built w (cleaned st) c lsp)
  /\ forall n, get n (importable (b_memory (built w st c lsp)))
             = get n (importable (b_memory (built w (cleaned st) c lsp))).

(** No build is interrupted just after it has deleted a cache. *)
Fixpoint interrupted_between (w : world) (st : state) (es : list event) : Prop :=
  match es with
  | [] => True
  | e :: es =>
      match e with
      | Interrupted c lsp (S k) => forall p n, nth_error (b_ops (built w st c lsp)) k <> Some (p, DeleteCache n)
      | _ => True
      end
      /\ interrupted_between w (step w st e) es
  end.
