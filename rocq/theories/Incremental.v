(** Model of incremental builds: compiler-core/src/build/module_loader.rs, package_loader.rs,
    package_compiler.rs (compile, analyse, encode_and_write_metadata) and the part of
    project_compiler.rs which compiles Gleam packages one after the other.

    What a module is compiled to is represented by what it was compiled from: its source and
    what the modules it imports were compiled to ([artefact]).  Whether a module compiles is an
    arbitrary function of that ([judge]).  So the analysis may use everything that can be
    reached through imports, and nothing else.

    Simplifications.  The files of a package are given in the order of the directories
    [src], [test], [dev]; whether [test] and [dev] belong to a package does not change.  Sources
    do not change while a build runs.  An import of the prelude does not count as import.
    Line numbers, warnings and the paths of sources are left out, as are source files with
    names that are not module names, packages built by other tools, and
    [Compile::DepsOnly].  The packages are given in the order of [order_packages], which
    is modelled in Packages.v, with the root package last.  File system errors other than a
    missing cache are left out.  A cache that can be read can be decoded. *)
From Coq Require Import String NArith Bool List.
From Verif Require Import Text DepTree.
Import ListNotations.
Local Open Scope list_scope.

(** ** Maps and sets with text keys *)
Fixpoint get {A} (k : text) (m : list (text * A)) : option A :=
  match m with
  | [] => None
  | (j, a) :: m => if text_eqb j k then Some a else get k m
  end.
Definition remove {A} (k : text) (m : list (text * A)) : list (text * A) :=
  filter (fun e => negb (text_eqb (fst e) k)) m.
Definition insert {A} (k : text) (a : A) (m : list (text * A)) : list (text * A) := (k, a) :: remove k m.
Definition member (k : text) (l : list text) : bool := existsb (text_eqb k) l.

(** ** Sources *)

(** [Origin], build.rs 275-281. *)
Inductive origin := Src | Test | Dev.
Record content := { c_origin : origin; c_text : text }.
(** A Gleam file and the name of its module, package_loader.rs 1722-1725. *)
Record file := { f_name : text; f_mtime : N; f_content : content }.

(** What was compiled: the module, its source and the modules it imports. *)
Inductive artefact := Compiled (n : text) (c : content) (imported : list (text * artefact)).

(** The result of the analysis of a module: [Outcome], build.rs 940-951. *)
Inductive verdict := Fine | Faulty | Hopeless.

(** What is not modelled: the parser, which gives the imports of a source; the hash; the
    analysis; code generation for a list of modules; and the names of Erlang's modules, which
    are forbidden if the target is Erlang. *)
Record world := {
  parse : text -> option (list text);
  fingerprint : text -> N;
  judge : artefact -> verdict;
  generates : list artefact -> bool;
  standard : text -> bool }.

(** [Codegen], build.rs 118-132. *)
Inductive codegen := All | DepsOnly | NoCodegen.
Definition should_codegen (c : codegen) (is_root_package : bool) : bool :=
  match c with All => true | DepsOnly => negb is_root_package | NoCodegen => false end.

(** ** Caches *)

(** [CacheMetadata], package_compiler.rs 813-820. *)
Record meta := { m_mtime : N; m_codegen : bool; m_imports : list text; m_fingerprint : N }.

(** The artefact directory of a package: the files [*.cache] and [*.cache_meta]. *)
Record store := { caches : list (text * artefact); metas : list (text * meta) }.
Definition empty : store := {| caches := []; metas := [] |}.

(** What is done to it. *)
Inductive op :=
| DeleteCache (n : text)
| DeleteMeta (n : text)
| WriteCache (n : text) (a : artefact)
| WriteMeta (n : text) (m : meta)
| DeleteDirectory.
Definition apply (s : store) (o : op) : store :=
  match o with
  | DeleteCache n => {| caches := remove n (caches s); metas := metas s |}
  | DeleteMeta n => {| caches := caches s; metas := remove n (metas s) |}
  | WriteCache n a => {| caches := insert n a (caches s); metas := metas s |}
  | WriteMeta n m => {| caches := caches s; metas := insert n m (metas s) |}
  | DeleteDirectory => empty
  end.
Definition applied (s : store) (os : list op) : store := fold_left apply os s.

(** [CacheFiles::delete], package_loader.rs 1824-1827. *)
Definition delete (n : text) : list op := [DeleteCache n; DeleteMeta n].

(** ** Errors *)
Inductive error :=
| ParseError (n : text)
| DuplicateModule (n : text)
| StandardErlangModule
| ImportCycle (names : list text)
| MissingCache (n : text)
| TypeErrors (failed skipped : list text)
| CodegenError
| Impossible.

(** ** Loading modules *)

(** [UncompiledModule], package_compiler.rs 856-867; [CachedModule], package_compiler.rs
    806-811, with its file for the path; [Input], package_compiler.rs 755-758. *)
Record uncompiled := { u_name : text; u_mtime : N; u_content : content; u_imports : list text }.
Inductive input :=
| New (u : uncompiled)
| Cached (f : file) (imports : list text).
Definition input_name (i : input) : text :=
  match i with New u => u_name u | Cached f _ => f_name f end.
Definition input_imports (i : input) : list text :=
  match i with New u => u_imports u | Cached _ imports => imports end.

(** [read_source], module_loader.rs 136-178. *)
Definition read_source (w : world) (f : file) : uncompiled + error :=
  match parse w (c_text (f_content f)) with
  | Some imports =>
      inl {| u_name := f_name f; u_mtime := f_mtime f; u_content := f_content f; u_imports := imports |}
  | None => inr (ParseError (f_name f))
  end.
Definition read_new (w : world) (f : file) : input + error :=
  match read_source w f with inl u => inl (New u) | inr e => inr e end.

(** [ModuleLoader::load], module_loader.rs 51-90. *)
Definition load (w : world) (codegen_required lsp : bool) (incomplete : list text) (s : store) (f : file)
  : input + error :=
  match get (f_name f) (metas s) with
  | None => read_new w f
  | Some m =>
      if codegen_required && negb (m_codegen m) then read_new w f
      else if (m_mtime m <? f_mtime f)%N then
        match read_source w f with
        | inr e => inr e
        | inl u =>
            if negb (m_fingerprint m =? fingerprint w (c_text (u_content u)))%N then inl (New u)
            else if lsp && member (f_name f) incomplete then inl (New u)
            else inl (Cached f (m_imports m))
        end
      else inl (Cached f (m_imports m))
  end.

(** The loops of [read_sources_and_caches], package_loader.rs 209-272, with [Inputs::insert],
    package_loader.rs 1689-1718: the names defined so far, with those of earlier packages, and
    the inputs. *)
Fixpoint load_files (w : world) (codegen_required lsp : bool) (incomplete : list text) (s : store)
    (defined : list text) (fs : list file) : (list text * list input) + error :=
  match fs with
  | [] => inl (defined, [])
  | f :: fs =>
      match load w codegen_required lsp incomplete s f with
      | inr e => inr e
      | inl i =>
          if member (f_name f) defined then inr (DuplicateModule (f_name f))
          else
            match load_files w codegen_required lsp incomplete s (f_name f :: defined) fs with
            | inr e => inr e
            | inl (defined, is) => inl (defined, i :: is)
            end
      end
  end.

(** [ensure_gleam_module_does_not_overwrite_standard_erlang_module], package_loader.rs
    340-346. *)
Definition overwrites (w : world) (i : input) : bool :=
  match i with New u => standard w (u_name u) | Cached _ _ => false end.

(** [sorted_by(|(a, _), (b, _)| a.cmp(b))], package_loader.rs 141 *)
Fixpoint insert_sorted (x : text * list text) (l : list (text * list text)) : list (text * list text) :=
  match l with
  | [] => [x]
  | y :: l => match text_cmp (fst x) (fst y) with Gt => y :: insert_sorted x l | _ => x :: y :: l end
  end.
Definition sorted_by_name (l : list (text * list text)) : list (text * list text) :=
  fold_right insert_sorted [] l.

Definition find_input (n : text) (is : list input) : option input :=
  find (fun i => text_eqb (input_name i) n) is.

(** [Loaded], package_compiler.rs 836-839: the modules to compile and those from the cache. *)
Record loaded := { to_compile : list uncompiled; from_cache : list (text * artefact) }.

(** The loop over the sequence, package_loader.rs 149-179, with [load_stale_module],
    package_loader.rs 274-295, and [load_cached_module], package_loader.rs 184-205: what is
    done to the directory, the stale modules and the result. *)
Fixpoint process (w : world) (is : list input) (sequence : list text) (s : store) (stale : list text)
  : list op * list text * (loaded + error) :=
  match sequence with
  | [] => ([], stale, inl {| to_compile := []; from_cache := [] |})
  | n :: sequence =>
      match find_input n is with
      | None => ([], stale, inr Impossible)
      | Some (New u) =>
          let '(os, stale, r) := process w is sequence s (u_name u :: stale) in
          (os, stale,
           match r with
           | inl l => inl {| to_compile := u :: to_compile l; from_cache := from_cache l |}
           | inr e => inr e
           end)
      | Some (Cached f imports) =>
          if existsb (fun d => member d stale) imports then
            let stale := f_name f :: stale in
            match read_source w f with
            | inr e => (delete (f_name f), stale, inr e)
            | inl u =>
                let '(os, stale, r) :=
                  process w is sequence (applied s (delete (f_name f))) stale in
                (delete (f_name f) ++ os, stale,
                 match r with
                 | inl l => inl {| to_compile := u :: to_compile l; from_cache := from_cache l |}
                 | inr e => inr e
                 end)
            end
          else
            match get (f_name f) (caches s) with
            | None => ([], stale, inr (MissingCache (f_name f)))
            | Some a =>
                let '(os, stale, r) := process w is sequence s stale in
                (os, stale,
                 match r with
                 | inl l =>
                     inl {| to_compile := to_compile l; from_cache := (f_name f, a) :: from_cache l |}
                 | inr e => inr e
                 end)
            end
      end
  end.

(** The modules with metadata but without source, package_loader.rs 117-123. *)
Definition removed (s : store) (is : list input) : list text :=
  filter (fun n => negb (member n (map input_name is))) (map fst (metas s)).

(** [PackageLoader::run], package_loader.rs 107-182: what is done to the directory, the
    modules defined, the stale modules and the result. *)
Record load_result := {
  l_ops : list op;
  l_defined : list text;
  l_stale : list text;
  l_loaded : loaded + error }.
Definition run (w : world) (codegen_required lsp : bool) (incomplete : list text) (s : store)
    (defined stale : list text) (fs : list file) : load_result :=
  let failed e := {| l_ops := []; l_defined := defined; l_stale := stale; l_loaded := inr e |} in
  match load_files w codegen_required lsp incomplete s defined fs with
  | inr e => failed e
  | inl (defined, is) =>
      if existsb (overwrites w) is then failed StandardErlangModule
      else
        let gone := removed s is in
        let deleted := flat_map delete gone in
        let stale := rev gone ++ stale in
        match toposort_deps (sorted_by_name (map (fun i => (input_name i, input_imports i)) is)) with
        | inr (Cycle names) =>
            {| l_ops := deleted; l_defined := defined; l_stale := stale; l_loaded := inr (ImportCycle names) |}
        | inr NoFuel =>
            {| l_ops := deleted; l_defined := defined; l_stale := stale; l_loaded := inr Impossible |}
        | inl sequence =>
            let '(os, stale, r) := process w is sequence (applied s deleted) stale in
            {| l_ops := deleted ++ os; l_defined := defined; l_stale := stale; l_loaded := r |}
        end
  end.

(** ** Analysis *)

(** The imports that are there. *)
Definition found (env : list (text * artefact)) (imports : list text) : list (text * artefact) :=
  flat_map (fun d => match get d env with Some a => [(d, a)] | None => [] end) imports.

(** The state of [analyse]: the modules by name, the modules with errors since their last
    success, the modules analysed, those with errors and those skipped. *)
Record analysis := {
  a_env : list (text * artefact);
  a_incomplete : list text;
  a_modules : list (uncompiled * artefact);
  a_failed : list text;
  a_skipped : list text }.

(** An import that is not there is an error, analyse/imports.rs 57-64. *)
Definition judged (w : world) (env : list (text * artefact)) (u : uncompiled) (a : artefact) : verdict :=
  match judge w a with
  | Fine =>
      if forallb (fun d => match get d env with Some _ => true | None => false end) (u_imports u)
      then Fine else Faulty
  | v => v
  end.

(** The body of the loop of [analyse], package_compiler.rs 588-731. *)
Definition analyse_module (w : world) (x : analysis) (u : uncompiled) : analysis :=
  if existsb (fun d => member d (a_failed x) || member d (a_skipped x)) (u_imports u) then
    {| a_env := a_env x; a_incomplete := a_incomplete x; a_modules := a_modules x;
       a_failed := a_failed x; a_skipped := a_skipped x ++ [u_name u] |}
  else
    let a := Compiled (u_name u) (u_content u) (found (a_env x) (u_imports u)) in
    match judged w (a_env x) u a with
    | Fine =>
        {| a_env := insert (u_name u) a (a_env x);
           a_incomplete := filter (fun n => negb (text_eqb n (u_name u))) (a_incomplete x);
           a_modules := a_modules x ++ [(u, a)];
           a_failed := a_failed x; a_skipped := a_skipped x |}
    | Faulty =>
        {| a_env := insert (u_name u) a (a_env x);
           a_incomplete := u_name u :: a_incomplete x;
           a_modules := a_modules x ++ [(u, a)];
           a_failed := a_failed x ++ [u_name u]; a_skipped := a_skipped x |}
    | Hopeless =>
        {| a_env := a_env x; a_incomplete := a_incomplete x; a_modules := a_modules x;
           a_failed := a_failed x ++ [u_name u]; a_skipped := a_skipped x |}
    end.
Definition analyse (w : world) (env : list (text * artefact)) (incomplete : list text) (us : list uncompiled)
  : analysis :=
  fold_left (analyse_module w) us
    {| a_env := env; a_incomplete := incomplete; a_modules := []; a_failed := []; a_skipped := [] |}.

(** ** Packages *)

(** [encode_and_write_metadata], package_compiler.rs 293-339. *)
Definition write_metadata (w : world) (codegen_performed : bool) (ms : list (uncompiled * artefact)) : list op :=
  flat_map (fun '(u, a) =>
    [WriteCache (u_name u) a;
     WriteMeta (u_name u)
       {| m_mtime := u_mtime u; m_codegen := codegen_performed; m_imports := u_imports u;
          m_fingerprint := fingerprint w (c_text (u_content u)) |}]) ms.

(** What the compiler keeps while it compiles packages, project_compiler.rs 94-113. *)
Record memory := {
  importable : list (text * artefact);
  defined_modules : list text;
  stale_modules : list text;
  incomplete_modules : list text }.

(** The modules loaded from the cache and the names of the modules compiled ([Compiled],
    package_compiler.rs 44-50). *)
Record package_result := {
  p_ops : list op;
  p_memory : memory;
  p_cached : list (text * artefact);
  p_result : list text + error }.

(** [PackageCompiler::compile], package_compiler.rs 113-245. *)
Definition compile_package (w : world) (perform_codegen lsp : bool) (s : store) (x : memory) (fs : list file)
  : package_result :=
  let l := run w perform_codegen lsp (incomplete_modules x) s (defined_modules x) (stale_modules x) fs in
  match l_loaded l with
  | inr e =>
      {| p_ops := l_ops l;
         p_memory :=
           {| importable := importable x; defined_modules := l_defined l; stale_modules := l_stale l;
              incomplete_modules := incomplete_modules x |};
         p_cached := [];
         p_result := inr e |}
  | inl ld =>
      let env := fold_left (fun env '(n, a) => insert n a env) (from_cache ld) (importable x) in
      let r := analyse w env (incomplete_modules x) (to_compile ld) in
      let x :=
        {| importable := a_env r; defined_modules := l_defined l; stale_modules := l_stale l;
           incomplete_modules := a_incomplete r |} in
      match a_failed r with
      | _ :: _ =>
          {| p_ops := l_ops l; p_memory := x; p_cached := from_cache ld;
             p_result := inr (TypeErrors (a_failed r) (a_skipped r)) |}
      | [] =>
          if perform_codegen && negb (generates w (map snd (a_modules r))) then
            {| p_ops := l_ops l; p_memory := x; p_cached := from_cache ld; p_result := inr CodegenError |}
          else
            {| p_ops := l_ops l ++ write_metadata w perform_codegen (a_modules r);
               p_memory := x; p_cached := from_cache ld;
               p_result := inl (map (fun m => u_name (fst m)) (a_modules r)) |}
      end
  end.

(** ** Projects *)

(** A package has a name and files.  What is done to the artefact directories carries the name
    of the package. *)
Definition package := (text * list file)%type.
Definition disk := text -> store.
Definition in_package (p : text) (os : list op) : list (text * op) := map (fun o => (p, o)) os.

(** What was loaded from the cache, for every package. *)
Record build_result := {
  b_ops : list (text * op);
  b_memory : memory;
  b_cached : list (text * list (text * artefact));
  b_result : unit + (text * error) }.

(** [compile_dependencies] and [compile_root_package], project_compiler.rs 197-260, with the
    directory of a dependency removed if it does not compile, project_compiler.rs 318-326. *)
Fixpoint compile_packages (w : world) (c : codegen) (lsp : bool) (d : disk) (x : memory) (ps : list package)
  : build_result :=
  match ps with
  | [] => {| b_ops := []; b_memory := x; b_cached := []; b_result := inl tt |}
  | (p, fs) :: ps =>
      let is_root := match ps with [] => true | _ :: _ => false end in
      let r := compile_package w (should_codegen c is_root) lsp (d p) x fs in
      match p_result r with
      | inr e =>
          {| b_ops := in_package p (p_ops r ++ if is_root then [] else [DeleteDirectory]);
             b_memory := p_memory r;
             b_cached := [(p, p_cached r)]; b_result := inr (p, e) |}
      | inl _ =>
          let q := compile_packages w c lsp d (p_memory r) ps in
          {| b_ops := in_package p (p_ops r) ++ b_ops q;
             b_memory := b_memory q;
             b_cached := (p, p_cached r) :: b_cached q;
             b_result := b_result q |}
      end
  end.

(** [ProjectCompiler::new], project_compiler.rs 119-152 *)
Definition new_compiler : memory :=
  {| importable := []; defined_modules := []; stale_modules := []; incomplete_modules := [] |}.
(** [reset_state_for_new_compile_run], project_compiler.rs 162-175 *)
Definition reset (x : memory) : memory :=
  {| importable := importable x; defined_modules := []; stale_modules := [];
     incomplete_modules := incomplete_modules x |}.

(** [ProjectCompiler::compile], project_compiler.rs 193-228, and [LspProjectCompiler::compile],
    language-server/src/compiler.rs 97-196. *)
Definition build (w : world) (c : codegen) (lsp : bool) (d : disk) (x : memory) (ps : list package) : build_result :=
  compile_packages w c lsp d (reset x) ps.

(** ** Histories *)
Definition apply_op (d : disk) (o : text * op) : disk :=
  fun p => if text_eqb (fst o) p then apply (d p) (snd o) else d p.
Definition apply_ops (d : disk) (os : list (text * op)) : disk := fold_left apply_op os d.

Record state := { packages : list package; caches_of : disk; compiler : memory }.

(** A file is written or removed; a new compiler is started; a build; a build which is
    interrupted after some of its changes to the disk. *)
Inductive event :=
| Write (p : text) (f : file)
| Remove (p : text) (o : origin) (n : text)
| Start
| Build (c : codegen) (lsp : bool)
| Interrupted (c : codegen) (lsp : bool) (ops : nat).

Definition origin_eqb (a b : origin) : bool :=
  match a, b with Src, Src | Test, Test | Dev, Dev => true | _, _ => false end.
Definition is_file (o : origin) (n : text) (f : file) : bool :=
  origin_eqb (c_origin (f_content f)) o && text_eqb (f_name f) n.
Definition without (o : origin) (n : text) (fs : list file) : list file :=
  filter (fun f => negb (is_file o n f)) fs.
Definition change (p : text) (g : list file -> list file) (ps : list package) : list package :=
  map (fun '(q, fs) => if text_eqb p q then (q, g fs) else (q, fs)) ps.

Definition built (w : world) (st : state) (c : codegen) (lsp : bool) : build_result :=
  build w c lsp (caches_of st) (compiler st) (packages st).
Definition step (w : world) (st : state) (e : event) : state :=
  match e with
  | Write p f =>
      {| packages := change p (fun fs => without (c_origin (f_content f)) (f_name f) fs ++ [f]) (packages st);
         caches_of := caches_of st; compiler := compiler st |}
  | Remove p o n =>
      {| packages := change p (without o n) (packages st);
         caches_of := caches_of st; compiler := compiler st |}
  | Start => {| packages := packages st; caches_of := caches_of st; compiler := new_compiler |}
  | Build c lsp =>
      let r := built w st c lsp in
      {| packages := packages st; caches_of := apply_ops (caches_of st) (b_ops r); compiler := b_memory r |}
  | Interrupted c lsp k =>
      let r := built w st c lsp in
      {| packages := packages st; caches_of := apply_ops (caches_of st) (firstn k (b_ops r));
         compiler := new_compiler |}
  end.
Definition steps (w : world) (st : state) (es : list event) : state := fold_left (step w) es st.

(** A new project with the packages [ps] and nothing built. *)
Definition start (ps : list text) : state :=
  {| packages := map (fun p => (p, [])) ps; caches_of := fun _ => empty; compiler := new_compiler |}.
