# Design

## Trusted base

* The Coq 8.16.1 kernel (and `coqchk`).
* Axioms: each `P_*.v` file ends with `Print Assumptions` for its theorems.
  The aim is "Closed under the global context" everywhere; any standard-library
  axiom that appears is listed in the section *Assumptions* at the end.
* The reading of the Rust source recorded in the comment above each definition
  (file and lines of /repo).  The code is not extracted or executed.

## Layout of /verif/rocq/theories

For each area `X`:

* `X.v` – the model: one definition per Rust function, each with a comment
  giving file, lines and simplifications;
* `XSpec.v` – the independent vocabulary the properties are stated in
  (only where needed);
* `XProofs.v` – lemmas;
* `P_X.v` – the property theorems, non-vacuity `Example`s next to them and
  `Print Assumptions`.

Rust integers are modelled by `N`/`Z`/`nat` without overflow unless the comment
on the definition says otherwise.  Strings are lists of code points (or bytes
where the code works on bytes).  `HashMap`/`HashSet` are finite association
lists or predicates; where iteration order is observable the model takes the
order as a parameter and the theorems quantify over it.

## Plan per property

| id | what is modelled | how it is proved |
|----|------------------|------------------|
| C01 | `format`, `fits` loops as fuel-free recursion on a document stack | induction on the stack; layout relation is a separate inductive spec |
| C02 | same | induction on documents: `fits` computes flat width |
| C03 | same | soundness of `fits` against the printed prefix |
| C04 | same | `fits` is false when a forced break is met in flat mode |
| C05 | the constant table | computation; refuted (five entries) |
| C06 | `append`, `concat`, `join`, `surround`, `group`, `is_empty` | case analysis + layout relation |
| C07 | `LineNumbers::new`, binary search | induction on the sorted line start table |
| C08 | `mapping`, `line_and_utf16_column_number`, `byte_index` | induction on characters |
| C09 | `SrcSpan` | arithmetic |
| C10 | `TermBuilder`, decoder written from the ETF documentation | structural induction, decode(encode t ++ r) = (t, r) |
| C11 | `bigint`, `usize` | round trip inside limits, refutation outside |
| C12 | `Ord for Version` | lexicographic order lemmas |
| C13, C43 | lexer + parser + Display | parser soundness and completeness against a grammar; C43 refuted (identifiers starting with `or`/`and`, hyphens in build metadata) |
| C14 | range parser; pubgrub ranges as interval sets | semantics of each operator; refutations for pre-releases |
| C15, C16, C53, C54, C55 | dependency.rs: `root_dependencies`, `parse_exact_version`, `resolve_versions` up to the call of the solver, the provider (`ensure_package_fetched`, `get_dependencies`, `choose_version`), the checks for updates; hash maps are association lists; pubgrub is replaced by its contract (`session`, `solution`): any calls in any order, the result has the root, versions the provider proposed, and the dependencies it named | invariant of the provider's store over sessions; exact effect of each function; C54 refuted by an order of calls |
| C17 | `toposort_deps`, `import_cycle`, `find_cycle`, petgraph's `toposort` (from the library, not in /repo) | DFS invariants; both directions |
| C18 | `CallGraphBuilder` on an AST whose alike forms share a constructor; `tarjan_scc` (petgraph) is a parameter with its documented contract, shown to be keepable | recorded edges lie between two strengths of a scoping relation written from the type checker; three kinds of missed uses refute the full claim |
| C19 | `exhaustiveness.rs`: decision tree compiler on constructors, tuples, lists, ints, floats, strings, prefixes, bit arrays | simulation: tree evaluation = first-match, first on pattern trees then on the arena; five refutations outside `simple_case` |
| C20 | `Diagnostics`, `Fail` leaves | from C19; the converse, on patterns without prefixes and bit arrays and types with values, by following each way of the tree that ends in `Fail` |
| C21 | `missing_patterns.rs` and the printer of `exhaustiveness/printer.rs`, `Names::named_constructor` | the texts are read as patterns by an independent relation (`written`); a way of the tree to `Fail` is the pattern that is printed; refuted by types without values and by the empty prefix |
| C22 | `is_reachable` | from C19 |
| C23 | bit array tests, `Confidence`, `Offset` | semantic soundness of each implication when size variables are not negative; refuted for `size(a + b)` with a negative `a` |
| C46 | `bit_array_to_tests` | induction on segments against a matching relation |
| C24 | `int_to_bits`, `representable_with_bits` | arithmetic on Z and bit lists |
| C25, C47 | `type_options`, `check_for_truncated_value`; of a size value only its integer literal is kept | complete characterisation against rules on the option list; each error blames an option that breaks the rule |
| C26, C27, C45 | `FieldMap::reorder`, `missing_labels`, builder | list permutations |
| C28 | `unify`, `unify_unbound_type`, `collapse_links`, `generalise_custom_type_variant`, derived equality of types, error flipping; type variables are cells of a store (`Arc<RefCell>`), and a cell changed while it is borrowed is a panic; annotations of `Named` other than module, name, arguments and inferred variant are one opaque value | invariant: every change of the store is an assignment of unbound variables; borrowed cells contain the second type, so are never changed; ends by unbound variables, then size, then link hops |
| C29, C50 | `instantiate`, `generalise`, `match_fun_type`, `new_unbound_var` on the variables of C28, the counter of numbers and the deferred aliases; `is_rigid` is a parameter | exact new environment as a fold over the generic variables that are new; a copy relation for the type |
| C30, C31, C59, C60, C61 | `ModuleLoader::load`, `PackageLoader::run`, `PackageCompiler::compile` with `analyse` and the metadata, the loop over packages, and histories of edits, builds and interruptions. What a module is compiled to is represented by its source and what its imports were compiled to; parser, hash, analysis and code generation are arbitrary functions | C31 characterises a successful run and each loading error; C30 and C59 by an invariant over `careful` histories, which are refuted otherwise (eight ways to load something outdated); C61 characterises the analysis module by module; C60 by the order of the changes to the disk, refuted between the deletion of a cache and of its metadata |
| C32, C33 | `FeedbackBookKeeper`: `response`, `build_with_error`, `error`, `open_file`, `close_file`; one keeper (the one for files outside projects is another instance); a diagnostic keeps path, level and an opaque rest | invariant relating the keeper's sets to the editor's display; C33 refuted by failed requests and by closing skipped files |
| C34, C35, C52 | `InMemoryFileSystem` on absolute paths without links, `FileSystemProxy`'s reads and cache over an arbitrary changing disk, `DirWalker`; unimplemented functions (`copy_dir`, `symlink_dir`, `reader`, `is_same_file`) are left out | each operation against a function on trees; histories by induction; walker by a measure of what lies below the queue |
| C36, C37, C44 | string functions, naming rules | induction; C37 refuted for double underscores |
| C38 | `handle_operator`, the loops of `parse_expression_inner`, `parse_clause_guard_inner`, `parse_const_value`, `expect_bit_array_size` and their reductions; the operand parser is a parameter, tokens that are no operators are numbered, the size reduction is given the operator's place | invariant relating the two stacks to one tree, complete characterisation of results and errors |
| C48, C49 | `expr` for operators, pipelines, negations and blocks of one expression: only the tokens of the document, no comments; operands are single tokens (integer literals with a sign are operands) | parsed trees are grouped, so no braces are added; induction on the size; C49 refuted by `-!!-x` |
| C39, C56, C57, C58 | `Lexer` and `NewlineHandler` whole: from the text to tokens with spans; positions are unbounded, floats keep only their text, the explanation of look-alike characters is left out | each function against the characters ahead of the lexer; then an independent grammar of pieces (`items`) and of errors (`bad`); spans from the pieces; C56 refuted by `//é` at the end, C58 by `a.0-1` |
| C40, C51 | `ProjectCompiler::new`, `retain_only_production_packages`, `order_packages`, `compile_dependencies`, `usable_build_tools`; whether a tool builds a package is a parameter; files, versions and the root package are left out | worklist invariant; C17 for the order; sorting removes the hash map's order |
| C62, C63, C64 | `ErlangSourceBuilder` whole: every method as a change of the code, the stack of positions and the indentation, a panic is `None`; floats are their decimal digits; spans are left out | what was built is a tree (`ErlangSourceSpec.v`) whose calls are those of the documentation of the trait; an Erlang scanner and parser written from the Erlang reference (`Erl.v`) read the text; refuted by negative literals as sizes of segments and by names with quotes |
| C65, C66, C67, C68, C69 | types in generated Erlang: `TypeGenerator`, counting of variables, `function_spec_attribute`, `type_definition`, `record_definition`, `erl_safe_type_name`, `ErlangModuleName::new`; unbound and generic variables are the same, links hold their type, hash maps are lists of entries | the calls of the builder against a translation of types to trees (`ErlangTypesSpec.v`), then C62 for the text; C68 refuted by the order of names, C69 by three predefined types |
| C70, C71, C72, C73, C74 | Erlang code of functions and modules: `ErlangCode.v` is `expression` and what it calls, `PatternGenerator`, guards, names of variables; `ErlangModule.v` is `module_document`, `module_function`, exports. Not modelled: literals and operators of floats, bit arrays, uses of constants, `assert`, `echo` | generated calls of the builder against trees (`ErlangCodeTree.v`), C62 for the text; Gleam (`ErlangCodeSpec.v`) and Erlang (`ErlangRun.v`) each have an interpreter, and the code simulates the source by induction on the steps of Gleam; C70 refuted five times, C72 twice, C73 once
| C75, C76, C77, C78, C79, C80 | references within a module: all methods of `ReferenceTracker` (`Reference.v`) and `Environment::handle_unused` after the local variables; nodes are numbers without limit, hash maps are lists and the order they are gone through in is a parameter. Not modelled: the callers in `analyse.rs` and `type_/`, whose discipline is `orderly` | a ledger (`ReferenceSpec.v`) writes every call down and forgets nothing; the tracker's graph and its two-way map of entities is related to it call by call, marking is reachability; C77 refuted three times |
| C81, C82, C83, C84 | types printed as source code: all of `Names` and `Printer` of type_/printer.rs, the names of types in `Environment` as imports, custom types and aliases are registered (environment.rs, imports.rs, analyse.rs), `parse_type`, and `type_from_ast` (`TypePrinter.v`) | printed types are read with the lexer model of C31 and the parser and the resolution of names as they are in the compiler; what is in sight is said with the statements of the module only (`TypePrinterSpec.v`). Not modelled: names of values in `Environment`, holes, links between type variables (a type is what it is after them), publicity other than whether a type can be imported, is public or is internal |
| C85, C86, C87, C88, C91 | `locked` of config.rs with stale_package_remover.rs, `unlock_packages`, `remove_extra_requirements`, `is_same_requirements` of compiler-cli/src/dependencies.rs, `PackageChanges` and `Resolved` of manifest.rs (`Locked.v`) | the recursion of `record_tree_fresh` has a stack of a given size, and overflowing it is an outcome; the loop of `unlock_packages` has fuel that is proved to suffice. Maps are lists of pairs in any order. Ranges are compared by their text and paths as texts; canonical paths are a parameter. What is needed and what is unlocked are inductive relations (`LockedSpec.v`). Not modelled: tracing, and fields of packages of a manifest that play no role here (outer checksum, build tools, otp app) |
| C89, C90, C92 | `resolve_versions`, `resolve_and_download_versions`, `perform_version_resolution` of dependency_manager.rs, `cleanup`, `LocalPackages`, `remove_extra_packages`, `add_missing_packages` of dependencies.rs, `ensure_package_in_build_directory` of hex.rs (`Fetch.v`) | the state is manifest.toml, packages.toml and build/packages; a directory holds a release of Hex or a commit of git. The solver (C15–C55 are about it), which downloads fail, canonical paths and whether configurations of path dependencies changed are parameters, for all of which the theorems hold; solvers give a package once and check out only git packages that they give. Sequences of commands are inductive (`FetchSpec.v`). Not modelled: build locks, caches of tarballs, clones and builds, messages, and files that cannot be read or written |
| C93, C94, C95, C96 | all of native_file_copier.rs, and `copy_project_native_files`, `compile_erlang_to_beam` of package_compiler.rs for packages whose Gleam modules are cached (`Native.v`) | a path is its directories and its name; names have no slash. The walk is a list in any order. Contents and times are numbers; a copy gets the time of copying. Which files compile is a parameter. What a file makes, and so which files conflict, is an inductive relation on names; sequences of edits and builds are inductive (`NativeSpec.v`). Not modelled: `priv`, Elixir's libraries, file systems that fail |
| C97, C98, C99, C100 | all of add.rs, and `parse_gleam_add_specifier` of dependencies.rs (`Add.v`), on top of `Fetch.v` and the versions of `Version.v` | gleam.toml is its name and two tables with ranges as text, manifest.toml its requirements and packages; the two names of the table of development dependencies are one. `usize` and `u32` wrap as in a release build. Which versions a specifier asks for is an inductive relation (`AddSpec.v`). Not modelled: the layout of the files, and files that cannot be read or written |
| C101, C102, C103 | `Scope`, `local_var`, `next_local_var`, `function_body`, `tail_call_loop`, `block`, `statements` and anonymous functions of javascript/expression.rs, the branches of javascript/decision.rs, and escaping, `fun_arguments` and the scope of modules of javascript.rs, as far as names go (`JsScope.v`) | Code is a sequence of bindings, references, and nested code of the kinds that treat the scope differently; a binding is a number. Scoping of Gleam and of JavaScript (with hoisting) are inductive relations (`JsScopeSpec.v`). Arguments are those that have names. Not modelled: which expressions make which of these, variables of the compiler that are looked up again instead of being held by name (`_pipe` in a pipeline), the identifiers `_`, `_1` of discarded arguments, and names of imported modules |
| C104, C105 | `path_dependency_configs_unchanged` and `is_same_requirements` of dependencies.rs, and the decisions of `resolve_versions` of dependency_manager.rs (`Fingerprint.v`) | Histories of writing files and of commands. A text has a fingerprint by any function, for which those written do not collide. Times of files are numbers, and time goes on with each event. What resolution finds is left out: a manifest has what it was resolved with. Paths are compared as text, not canonicalised (that is in `Locked.v`). Not modelled: path dependencies of path dependencies, which the code says it does not look at |
| C106, C107 | `Manifest::to_toml`, `Requirement::to_toml`, checksums, `make_relative`, `validate_safe_relative_path` and the derived deserialisation of manifests (`ManifestText.v`) | The whole text, character by character. The crate `toml` is specified by `Toml.v`, an executable reader of the part of TOML that manifests use; what serde derives is modelled from the attributes. `pathdiff` follows its documentation. A range is its text. Paths as on Unix, that of the project absolute and without `..` |
| C108, C109, C110 | `javascript/import.rs` and, of `javascript.rs`, `collect_imports`, `import_path`, `register_import`, `register_external_function`, `register_prelude_usage`, the table of the prelude, constants of variants (`JsImports.v`) | The result is the list of statements, not their layout. What the code uses (`UsageTracker`) is given: `checked` says what analysis and code generation make sure of. Hash sets are lists of which the repetitions are left out at the end; the hash map of constants is iterated in any order. Not the TypeScript declarations |
| C111, C112 | `ErlangApp::render` in `codegen.rs`, `escape_atom_string`, `module_erlang_name` (`AppFile.v`) | The whole text, character by character. How Erlang reads it is specified by `ErlTerm.v`, an executable reader of the part of `file:consult` that .app files use. The argument of the start module is any text that this reads as a term. Tables are lists of their keys |
| C113, C114 | `space_table` in `text_layout.rs`, `list_manifest_packages`, `format_versions_and_extract_longest_parts` and the reports that use it in `dependencies.rs` (`TextTable.v`) | The whole text. Lengths are in bytes, as in the code; places in lines are counted in characters, so that alignment is about printable ASCII, which names and versions are. Rows are sorted by their names, which are the keys of a map and so never equal |
| C115 | `insert_unqualified_import` and what it calls in `edits.rs` (`ImportEdit.v`) | All of it, with ASCII text. How an import is read is specified by `ImportEditSpec.v`: words, signs and comments, and the grammar of imports as a list of tokens. Which of the items are types and which values is not distinguished: an item is its list of words |
| C116 | `position_of_first_definition_if_import`, `add_newlines_after_import`, `get_import_edit` in `edits.rs`, and `maybe_import`/`add_import` around them (`ImportAdd.v`) | One import that is added, with offsets instead of positions and ASCII text. Trusted: the location of a definition is that of its text without attributes and comments, the locations in the typed module are those of the text, in any order. Definitions for another target, which are not in the typed module, are left out: the theorems are about modules all of whose definitions are. |

## The model of `case`

`Case.v` follows `exhaustiveness.rs` function by function.  Simplifications:

* pattern variables are compared by their identity number, as in the Rust `PartialEq`; types
  carry no links and are already collapsed;
* floats are their 64 bits; two literals are equal when the bits are;
* the trie of string prefixes is the list of its entries in insertion order, with the two
  lookups the compiler uses;
* the value of a size variable bound outside the `case` is fixed by an oracle `outside`, the
  guards by an oracle that does not depend on the order of the bindings;
* the tail of a list pattern is a variable or a discard, as the parser guarantees.

`compile_case_correct` (CaseTop.v) is proved in steps: `CasePure.v` is the compiler on pattern
trees, `CaseCompile.v` shows that its tree runs the first branch that matches, `CaseRefine.v`
that the compiler on the arena of patterns computes the same tree, `CaseSource.v` that a
pattern tree matches what the source pattern matches.  The conditions of `simple_case`:
strings are written without `\u{..}` and redundant escapes; no literal alias inside a bit
array; no segment whose literal does not fit; sizes are not negative; a prefix nested in
another pattern has no name; a nested bit array is not only `<<rest:bits>>`; a prefix below a
longer prefix or a string that starts with it only where the earlier clause cannot fail
elsewhere.  `P_Case.v` has counterexamples for them, except for negative sizes (see C23) and nested `<<rest:bits>>`.

`MissingPatterns.v` walks such a tree and prints, for each way (`CasePaths.path`) to `Fail`, the
checks on it.  `CaseWays.v` and `CaseFalls.v`: the values that fall through follow such a way,
and (without prefixes and bit arrays) each way is followed by some values.
`MissingPatternsShown.v` reads the checks of a way as a pattern, `MissingPatternsProofs.v` shows
that this is what is printed.  Left out: `case` without clauses, and the wrapping in an error
message.

## The model of generated Erlang

`Erl.v` scans and parses Erlang, `ErlangRun.v` runs what was parsed: an interpreter of the part of
Erlang that is generated, written from the Erlang reference manual, and trusted as the meaning of
the output.  It gives no result for what it does not know (operands of the wrong type, a variable
bound twice by operands, `"a"/binary` in a binary), and C70 is that there is a result.  Elements
and operands are evaluated from left to right.  Functions of other modules are a function of what
was called before, the same in Gleam and in Erlang, on values that have no functions in them, and
do not fail.  `ErlangCodeSpec.v` is the interpreter of typed Gleam, written from the documentation
of the language, with `legal_module`: what the type checker makes sure of (names, scopes, places of
variables, kinds of operands where the generator looks at them) and, marked with C70, what is
generated wrongly:

* what is divided, when `is_pure_value_constructor` wrongly says that it has no effect (an operator,
  a list, a tuple or a field of something that has effects, or a call of a function taken to be
  pure), and what it is divided by is no literal;
* division in guards;
* `<>` of an alias of a prefix in a guard, or of a literal in braces;
* external functions called `module_info`.

Values of functions are related to their code only while they run; C70 says nothing about a result
that contains a function.

## Assumptions

`Print Assumptions` says "Closed under the global context" for every theorem listed in
MANIFEST.json.  `coqchk` lists seven axioms of the standard library,
`Coq.ssr.ssrunder.Under_rel.*`, which come with the files that `lia` needs; no theorem depends
on them.

## Wrong programs that were not noticed

Most lines of `seeded/LOG.jsonl` were written by a script that only logged edits after which a theorem failed; the edits that survived were added afterwards from the output of the runs (lines with a `note`). Output of the first two runs is no longer there, so survivors of those are not listed. "Failed" means that a proof script failed, which for some edits does not mean that the claim is false. Edits that did not apply or did not type-check are not logged.

Known weak places: `should_codegen` (C30, C59: `IncrementalSpec.v` uses it, so a wrong one is not noticed), `is_pure_value_constructor` in `ErlangCode.v` for failures and calls (C70), and what the language server keeps between builds in `reset` (C59).
