{"id": "C01", "title": "Pretty printing is a layout of the document", "statement": "Printing a document yields exactly its text pieces in order, where every soft break is rendered either as its unbroken text or as its broken text followed by a newline and the current indentation, and every hard line as newlines plus indentation; nothing is lost, duplicated or reordered.", "quantifier": "every document, line limit and starting state", "why_tests_cant": "documents form an infinite recursive type and the layout depends on the limit", "anchors": ["pretty-arena/src/lib.rs: format, Document::pretty_print"]}
{"id": "C02", "title": "A document that fits is printed on one line", "statement": "If a group contains no hard line and no forced break and its flat width fits in the remaining space on the line, the printed group contains none of its broken separators: it is its flat text.", "quantifier": "every group document, position and limit", "why_tests_cant": "requires an argument about all nestings", "anchors": ["pretty-arena/src/lib.rs: fits, format"]}
{"id": "C03", "title": "A group that is printed flat respects the line limit", "statement": "When a group containing no enabled next-break-fits is chosen to be laid out flat, the text emitted from the start of the group up to the first newline (or the end of the group) ends no further right than the limit, measured with the printer's own widths; and a group is laid out broken only if it does not fit flat.", "quantifier": "every document, limit, indentation", "why_tests_cant": "quantifies over all documents", "anchors": ["pretty-arena/src/lib.rs: fits, format"]}
{"id": "C04", "title": "A forced break is never flattened by an enclosing group", "statement": "A group that contains a force-break before any hard line and outside of any enabled next-break-fits wrapper is laid out in broken mode whatever the limit, so each of its own strict breaks is a newline.", "quantifier": "every document and limit", "why_tests_cant": "limits are unbounded", "anchors": ["pretty-arena/src/lib.rs: fits (ForceBroken), format"]}
{"id": "C05", "title": "Declared widths of constant strings are their real widths", "statement": "Each pre-allocated constant string document declares a width equal to the number of characters of its text.", "quantifier": "every entry of the constant table", "why_tests_cant": "table is large and only checked through the formatter's behaviour", "anchors": ["pretty-arena/src/lib.rs: const_str!"]}
{"id": "C06", "title": "Document construction preserves text", "statement": "append, concat, join and surround produce documents that print the concatenation of their parts, the empty document is a unit, grouping does not change the text, and a document without breaks and lines is reported empty exactly when it prints nothing.", "quantifier": "all documents", "why_tests_cant": "infinite type", "anchors": ["pretty-arena/src/lib.rs: append, concat, join, surround, group, is_empty"]}
{"id": "C07", "title": "Line numbers count newlines", "statement": "For any source and any byte offset, the reported line is one plus the number of newline characters strictly before the offset, and the reported column is the distance from the last newline.", "quantifier": "every source text and byte offset", "why_tests_cant": "all strings", "anchors": ["src-span/src/lib.rs: LineNumbers::new, line_number, line_and_utf8_column_number"]}
{"id": "C08", "title": "Byte offset to LSP position and back is the identity", "statement": "Converting a byte offset on a character boundary to a zero-based line and UTF-16 column and converting it back gives the same byte offset, including for text with multi-byte characters.", "quantifier": "every source text and character-boundary offset", "why_tests_cant": "all strings with all mixes of character widths", "anchors": ["src-span/src/lib.rs: line_and_utf16_column_number, byte_index"]}
{"id": "C09", "title": "Span algebra", "statement": "Merging spans gives the smallest span containing both; containment of spans agrees with containment of all their offsets.", "quantifier": "all spans", "why_tests_cant": "infinite domain", "anchors": ["src-span/src/lib.rs: SrcSpan::merge, contains, contains_span"]}
{"id": "C10", "title": "External term format round trip", "statement": "Decoding, with the published external term format, the bytes produced by the term builder gives back exactly the term that was built (atoms, integers, floats, binaries, tuples and nested lists, within the size limits of the format), and leaves no bytes over.", "quantifier": "every term within the documented size limits", "why_tests_cant": "recursive terms", "anchors": ["erlang-term-format/src/lib.rs: TermBuilder"]}
{"id": "C11", "title": "Integers of any size survive encoding", "statement": "Every integer accepted by the term builder is encoded as bytes that decode to that same integer.", "quantifier": "all integers", "why_tests_cant": "unbounded integers", "anchors": ["erlang-term-format/src/lib.rs: TermBuilder::bigint, usize"]}
{"id": "C12", "title": "Version order is a total preorder agreeing with semantic versioning", "statement": "Comparison is reflexive, antisymmetric up to build metadata, transitive and total; numeric parts dominate; a pre-release is lower than its release; numeric identifiers are below alphanumeric ones; a proper prefix of identifiers is lower.", "quantifier": "all triples of versions", "why_tests_cant": "infinite domain", "anchors": ["hexpm/src/version.rs: Ord for Version, PreOrder"]}
{"id": "C13", "title": "Printing then parsing a version is the identity", "statement": "Parsing the printed form of a version obtained by parsing gives an equal version.", "quantifier": "all strings accepted as versions", "why_tests_cant": "all strings", "anchors": ["hexpm/src/version.rs: Version::parse, Display", "hexpm/src/version/parser.rs", "hexpm/src/version/lexer.rs"]}
{"id": "C14", "title": "Version requirements mean what they say", "statement": "A version satisfies `>= v`, `> v`, `<= v`, `< v`, `== v`, `!= v` and `~> v` exactly when it compares accordingly; `and` is intersection, `or` is union and `and` binds tighter.", "quantifier": "all versions and requirement expressions", "why_tests_cant": "infinite domain", "anchors": ["hexpm/src/version/parser.rs: range, range_ands_section, pessimistic_version_constraint"]}
{"id": "C15", "title": "Locked versions stay locked", "statement": "Dependency resolution is asked for exactly the locked version of each locked package, and a locked version outside a new requirement is reported as an error rather than silently changed.", "quantifier": "all requirement sets and lock files", "why_tests_cant": "arbitrary maps", "anchors": ["compiler-core/src/dependency.rs: root_dependencies"]}
{"id": "C16", "title": "Newest stable release is preferred", "statement": "Candidate releases are offered so that the chosen release is the highest stable release inside the range, and a pre-release is chosen only if no stable release is in range; nothing is lost or invented while sorting.", "quantifier": "all release lists and ranges", "why_tests_cant": "arbitrary lists", "anchors": ["compiler-core/src/dependency.rs: ensure_package_fetched, choose_version"]}
{"id": "C17", "title": "Modules are compiled after everything they import", "statement": "When ordering succeeds the result contains each module once and every known dependency of a module precedes it; when it fails the reported modules form a real cycle of imports; it fails exactly when there is a cycle.", "quantifier": "all finite dependency graphs", "why_tests_cant": "all graphs", "anchors": ["compiler-core/src/dep_tree.rs: toposort_deps, import_cycle, find_cycle"]}
{"id": "C18", "title": "Definitions are inferred after the definitions they use", "statement": "For every module, if the body of a function or constant mentions another definition of the module that is not shadowed at that point, the mentioned definition is in the same or an earlier inference group.", "quantifier": "all modules", "why_tests_cant": "syntax trees with arbitrary shadowing", "anchors": ["compiler-core/src/call_graph.rs: into_dependency_order, CallGraphBuilder"]}
{"id": "C19", "title": "A case expression runs its first matching clause", "statement": "Evaluating the compiled decision tree on any value of the scrutinee type runs the body of the first clause whose pattern matches and whose guard holds, with the variables bound to the right sub-values.", "quantifier": "all clause lists (any nesting of patterns), all values, all guard valuations", "why_tests_cant": "patterns and values are recursive and clause lists unbounded", "anchors": ["compiler-core/src/exhaustiveness.rs: Compiler::compile, BranchSplitter, CaseToCompile"]}
{"id": "C20", "title": "Exhaustiveness checking is sound and complete", "statement": "A case is accepted as exhaustive iff every value of the scrutinee type is matched by some unguarded clause; hence at run time an accepted case never falls through.", "quantifier": "all clause lists and all values of the type", "why_tests_cant": "infinite values", "anchors": ["compiler-core/src/exhaustiveness.rs: Diagnostics, Decision::Fail, CompileCaseResult"]}
{"id": "C21", "title": "Reported missing patterns are really missing", "statement": "Every pattern suggested as missing describes values not matched by any clause, and every unmatched value is described by some suggested pattern.", "quantifier": "all clause lists and values", "why_tests_cant": "infinite values", "anchors": ["compiler-core/src/exhaustiveness/missing_patterns.rs: missing_patterns"]}
{"id": "C22", "title": "Unreachable clause warnings are correct", "statement": "A clause is reported unreachable only if no value and guard outcome can make it run.", "quantifier": "all clause lists", "why_tests_cant": "infinite values", "anchors": ["compiler-core/src/exhaustiveness.rs: CompileCaseResult::is_reachable"]}
{"id": "C23", "title": "Bit array test implications are sound", "statement": "When the compiler concludes that one bit array test must succeed or must fail given the outcome of another, that is so for every bit array and every valuation of size variables.", "quantifier": "all pairs of tests, bit arrays and valuations", "why_tests_cant": "infinite domain", "anchors": ["compiler-core/src/exhaustiveness.rs: BitArrayTest::succeeds_if_succeeding, fails_if_failing, fails_if_succeeding, MatchTest::interfering_bits, Offset"]}
{"id": "C24", "title": "Literal integer segments compare the right bits", "statement": "The bit pattern used to compare an integer literal segment has the segment's size and is the only one of that size that reads back as the literal in the given endianness and signedness; a literal is declared unrepresentable exactly when no bits of that size read back as it.", "quantifier": "all integers, sizes, endiannesses", "why_tests_cant": "infinite domain", "anchors": ["compiler-core/src/exhaustiveness.rs: int_to_bits, representable_with_bits"]}
{"id": "C25", "title": "Segment options are accepted exactly when meaningful", "statement": "A list of bit array segment options is accepted iff it has at most one option of each category and the combination rules (unit needs size, sizes on floats, signedness only on ints, endianness, UTF types, last-segment size) hold, and the resulting type is the documented one.", "quantifier": "all option lists, modes, targets", "why_tests_cant": "combinatorial, unbounded lists", "anchors": ["compiler-core/src/bit_array.rs: type_options"]}
{"id": "C26", "title": "Labelled arguments land in their declared positions", "statement": "When reordering succeeds the arguments are a permutation of the given ones, every labelled argument is at its label's index, unlabelled arguments keep their relative order and fill the remaining positions.", "quantifier": "all field maps and call argument lists", "why_tests_cant": "all permutations of all lengths", "anchors": ["compiler-core/src/type_/fields.rs: FieldMap::reorder"]}
{"id": "C27", "title": "Bad labels are always rejected", "statement": "A call with the wrong number of arguments, an unknown label, a repeated label, or a positional argument after a labelled one is rejected; all other calls are accepted.", "quantifier": "all field maps and argument lists", "why_tests_cant": "infinite domain", "anchors": ["compiler-core/src/type_/fields.rs: FieldMap::reorder, FieldMapBuilder"]}
{"id": "C28", "title": "Unification is sound and most general", "statement": "If unify succeeds the two types are equal after resolving links; any other assignment making them equal factors through the one found; if unify fails no assignment of unbound variables makes them equal; it never creates a cyclic type.", "quantifier": "all pairs of types over all variable graphs", "why_tests_cant": "recursive types with shared mutable variables", "anchors": ["compiler-core/src/type_/environment.rs: unify, unify_unbound_type"]}
{"id": "C29", "title": "Instantiation gives fresh independent copies", "statement": "Instantiating a type replaces each generic variable consistently by a fresh unbound variable, leaves unbound and rigid variables alone, and does not change the shape.", "quantifier": "all types", "why_tests_cant": "recursive types", "anchors": ["compiler-core/src/type_/environment.rs: Environment::instantiate", "compiler-core/src/type_.rs: generalise"]}
{"id": "C30", "title": "Incremental builds never use an outdated cache", "statement": "After any history of edits, additions, deletions, failed and successful builds, a module loaded from cache was compiled from the current source of itself and of all its transitive dependencies.", "quantifier": "all histories of edits and builds, all module graphs", "why_tests_cant": "unbounded histories and crash points", "anchors": ["compiler-core/src/build/package_loader.rs: PackageLoader::run, StaleTracker", "compiler-core/src/build/module_loader.rs: load", "compiler-core/src/build/package_compiler.rs: compile", "compiler-core/src/build/project_compiler.rs: compile"]}
{"id": "C31", "title": "A stale module invalidates exactly its dependents", "statement": "In one run the modules recompiled are those whose own cache is unusable and those that transitively import a recompiled or removed module, and no others.", "quantifier": "all module graphs and cache states", "why_tests_cant": "all graphs", "anchors": ["compiler-core/src/build/package_loader.rs: PackageLoader::run"]}
{"id": "C33", "title": "Warnings of unchanged files are kept", "statement": "A warning stays displayed until its file is recompiled.", "quantifier": "all event histories", "why_tests_cant": "unbounded histories", "anchors": ["language-server/src/feedback.rs: FeedbackBookKeeper::response, unset_errors"]}
{"id": "C34", "title": "Unsaved edits override the disk", "statement": "Through the language server's file system, reading a file returns the latest unsaved editor content if there is any and the disk content otherwise, for any sequence of edits, saves, closes and disk writes.", "quantifier": "all operation sequences", "why_tests_cant": "unbounded histories", "anchors": ["language-server/src/files.rs: FileSystemProxy", "compiler-core/src/io/memory.rs: InMemoryFileSystem"]}
{"id": "C35", "title": "In-memory file system behaves like a file system", "statement": "For any operation sequence: reads return the last write; every existing entry's parents are directories; deleting a directory removes exactly what is under it.", "quantifier": "all operation sequences", "why_tests_cant": "unbounded histories", "anchors": ["compiler-core/src/io/memory.rs"]}
{"id": "C36", "title": "String measurements agree with encodings", "statement": "The UTF-16 and UTF-32 byte conversions decode back to the same code points and their lengths equal the reported lengths; escape processing denotes the intended code points.", "quantifier": "all strings", "why_tests_cant": "all strings", "anchors": ["compiler-core/src/strings.rs: string_to_utf16_bytes, string_to_utf32_bytes, length_utf16, length_utf32, convert_string_escape_chars"]}
{"id": "C37", "title": "Suggested name corrections are legal names", "statement": "For every name the lexer lets through that is badly cased for its kind (type, variable, discard), the suggested correction is a name that the case check accepts, and correcting again changes nothing.", "quantifier": "all lexed names of all kinds", "why_tests_cant": "all strings", "anchors": ["compiler-core/src/strings.rs: to_snake_case, to_upper_camel_case", "compiler-core/src/analyse/name.rs: check_name_case, correct_name_case"]}
{"id": "C38", "title": "Operators parse with the documented precedence", "statement": "For every sequence of operands and binary operators the parsed tree has the operands in source order, and is the tree given by the precedence table with left associativity.", "quantifier": "all token sequences", "why_tests_cant": "unbounded sequences", "anchors": ["compiler-core/src/parse.rs: parse_expression, handle_op, do_reduce_expression, precedence"]}
{"id": "C39", "title": "Lexing covers the source", "statement": "Tokens produced by the lexer have increasing, non-overlapping spans inside the source and everything between tokens is whitespace or comments; lexing always terminates.", "quantifier": "all source texts", "why_tests_cant": "all strings", "anchors": ["compiler-core/src/parse/lexer.rs: Lexer"]}
{"id": "C40", "title": "Production builds keep exactly the production dependencies", "statement": "In production mode the packages compiled are exactly those reachable from the root's non-dev dependencies.", "quantifier": "all dependency graphs, including cyclic", "why_tests_cant": "all graphs", "anchors": ["compiler-core/src/build/project_compiler.rs: retain_only_production_packages"]}
{"id": "C41", "title": "Cursor observers are told the real cursor position", "statement": "When a document is printed, every cursor position observer in it is called with the line and column at which the printer's output actually stands at that point (used to build source maps), provided the declared widths of the document's texts are their byte lengths.", "quantifier": "every document and line limit", "why_tests_cant": "Positions depend on every layout decision taken before; finitely many snapshots cannot cover all documents and limits.", "anchors": ["pretty-arena/src/lib.rs:1184-1379", "pretty-arena/src/lib.rs:395-496"]}
{"id": "C42", "title": "A cursor position stays on its line", "statement": "A language-server position whose character lies past the end of its line denotes the end of that line (as the protocol requires), so the byte offset computed for it is on that line and inside the file.", "quantifier": "every source text and position", "why_tests_cant": "positions are arbitrary pairs sent by clients, texts are arbitrary", "anchors": ["src-span/src/lib.rs:200-223"]}
{"id": "C43", "title": "Every semantic version is accepted", "statement": "Every string that is a valid version by semver.org (with numbers below 2^32) is accepted as a version.", "quantifier": "all strings", "why_tests_cant": "all strings", "anchors": ["hexpm/src/version/lexer.rs: lex", "hexpm/src/version/parser.rs: pre, build"]}
{"id": "C44", "title": "Different constructors get different Erlang tags", "statement": "The tag atom generated for a constructor is its words in small letters joined by underscores; two different legal constructor names never get the same tag, and each tag is a legal lower-case name.", "quantifier": "all legal constructor names", "why_tests_cant": "all pairs of names", "anchors": ["compiler-core/src/strings.rs: to_snake_case", "compiler-core/src/erlang/pattern.rs 204-215"]}
{"id": "C45", "title": "The missing labels complete a call", "statement": "The labels reported as missing from a call are, in declaration order, those of the labelled parameters that neither a label nor an unlabelled argument of the call fills; a call that is only too short is accepted once arguments with those labels are appended.", "quantifier": "all field maps and argument lists", "why_tests_cant": "infinite domain", "anchors": ["compiler-core/src/type_/fields.rs: FieldMap::missing_labels", "language-server/src/code_action.rs 813-880"]}
{"id": "C46", "title": "Bit array tests mean segment-by-segment matching", "statement": "All tests generated for a bit array pattern succeed on a bit array exactly when its segments, taken in order, match consecutive pieces that make up the whole array, each as long as its size (which may use names bound by earlier segments) says; the names are then bound to those pieces.", "quantifier": "all well-typed bit array patterns, bit arrays and values of outside variables", "why_tests_cant": "infinite domain", "anchors": ["compiler-core/src/exhaustiveness.rs 3705-4079: bit_array_to_tests, segment_matched_value, segment_size, bit_array_size", "compiler-core/src/exhaustiveness.rs: Offset::add_size, ReadSize::can_be_negative"]}
{"id": "C47", "title": "Truncated literals are reported", "statement": "A bit array segment with a constant width warns about its integer literal iff reading the segment back, with or without sign, does not give the literal; the value shown in the warning is the one the segment holds.", "quantifier": "all literals, options and widths below 2^63 bits", "why_tests_cant": "Unbounded integers; the range test is off by one at some widths only if at all.", "anchors": ["compiler-core/src/ast.rs: check_for_truncated_value, bits_size, truncate"]}
{"id": "C32", "title": "Editor error diagnostics always reflect the last failure", "statement": "After any sequence of builds, failed requests and file open/close events, the error diagnostics shown by the client at each file are those of the latest failed build or request (plus, in files that are open, the note that they were not checked because of it), and none after a successful build. Errors without a location are sent once, as messages.", "quantifier": "all event histories", "why_tests_cant": "unbounded histories", "anchors": ["language-server/src/feedback.rs: FeedbackBookKeeper"]}
{"id": "C48", "title": "Formatting keeps the grouping of operators", "statement": "For every expression that was parsed from tokens, parsing the tokens of its formatted text gives the same expression, braces included, with pairs of equal negations removed, and leaves no token.", "quantifier": "all token sequences of operands, operators, negations and blocks of one expression", "why_tests_cant": "unbounded nesting of operators, pipelines, negations and blocks", "anchors": ["format/src/lib.rs: bin_op, bin_op_side, operator_side, pipeline, negate_bool, negate_int, block", "compiler-core/src/ast/untyped.rs: bin_op_precedence", "compiler-core/src/ast.rs: operator_kind"]}
{"id": "C49", "title": "Formatting formatted operators changes nothing", "statement": "For every expression that was parsed, formatting, parsing and formatting again gives the same tokens as formatting once.", "quantifier": "all token sequences of operands, operators, negations and blocks of one expression", "why_tests_cant": "unbounded nesting", "anchors": ["format/src/lib.rs: bin_op, negate_bool, negate_int"]}
{"id": "C50", "title": "A type called as a function becomes the most general function type", "statement": "match_fun_type gives exactly the arguments and result of a function type with the number of arguments asked for; an unbound variable is assigned a function of fresh variables, such that any other function type of this arity is an instance; otherwise it fails without changing anything: with the function's arity if the type is a function of another arity, and with the type itself only if no assignment makes it a function.", "quantifier": "all types over all variable graphs, all arities", "why_tests_cant": "fresh variables and shared mutable variables", "anchors": ["compiler-core/src/type_.rs: match_fun_type"]}
{"id": "C51", "title": "Dependency packages are built after what they require, with the right tool", "statement": "A build gives every wanted package to its tools once, after all the packages it requires: Gleam alone if the package lists it, otherwise Mix and then rebar3 if Mix fails. It stops at the first package that no tool builds or that lists no known tool, and names it. If packages require each other in a loop it builds nothing and reports such a loop. The outcome does not depend on the order of the manifest or of the dependencies.", "quantifier": "all manifests and dependency graphs, all modes, all outcomes of the tools", "why_tests_cant": "all graphs and failure points; iteration order of hash maps", "anchors": ["compiler-core/src/build/project_compiler.rs: compile_dependencies, load_cache_or_compile_package, order_packages, usable_build_tools"]}
{"id": "C52", "title": "Walking a directory finds exactly its files", "statement": "The directory walker ends and returns exactly the files that can be reached from its start through directories, each once; where every entry's parents are directories, these are all the files below the start.", "quantifier": "all file system states reachable by any operations, all start paths", "why_tests_cant": "all shapes of trees", "anchors": ["compiler-core/src/io.rs: DirWalker", "compiler-core/src/io/memory.rs: read_dir"]}
{"id": "C53", "title": "Resolved versions satisfy all requirements", "statement": "Every set of versions the solver can find with the answers of the dependency provider consists of releases that exist, uses a retired release only if it is locked to that version, and contains for every mandatory requirement of a selected release a version inside the required range; the dependencies named for a release are its mandatory requirements and the optional ones on known packages, narrowed by what was remembered.", "quantifier": "all repositories, provided packages, lock files, requirements and orders of calls", "why_tests_cant": "arbitrary registries and solver orders", "anchors": ["compiler-core/src/dependency.rs: get_dependencies, ensure_package_fetched"]}
{"id": "C54", "title": "Optional requirements are respected", "statement": "If a selected release has an optional requirement on a package that is also selected, the selected version of that package is inside the required range.", "quantifier": "all repositories and orders of calls", "why_tests_cant": "depends on the order in which the solver asks", "anchors": ["compiler-core/src/dependency.rs: get_dependencies"]}
{"id": "C55", "title": "Reported updates are real updates", "statement": "The packages reported as having a newer version are exactly those packages from the repository whose highest stable release is newer than the locked one (for the major check: direct requirements with a higher major version), and the version reported is that release.", "quantifier": "all manifests and repositories", "why_tests_cant": "arbitrary release lists", "anchors": ["compiler-core/src/dependency.rs: resolve_versions_diffs, check_for_major_version_updates, check_for_version_updates"]}
{"id": "C56", "title": "Spans cut tokens out of the source", "statement": "The span of every token starts and ends between characters of the source, and the text between is what the token is written with.", "quantifier": "all source texts", "why_tests_cant": "all strings, including multi-byte characters", "anchors": ["compiler-core/src/parse/lexer.rs: Lexer, get_position"]}
{"id": "C57", "title": "Tokens follow the lexical grammar", "statement": "The tokens of a source are those of the lexical grammar, with the longest match for names, numbers and symbols; when lexing fails, the text at that place cannot be continued and the error names the reason and the place.", "quantifier": "all source texts", "why_tests_cant": "all strings", "anchors": ["compiler-core/src/parse/lexer.rs: Lexer"]}
{"id": "C58", "title": "A minus sign behind an operand is subtraction", "statement": "A minus sign directly behind a name or a number is never read as the sign of the number that follows.", "quantifier": "all source texts", "why_tests_cant": "all combinations of tokens", "anchors": ["compiler-core/src/parse/lexer.rs: consume_normal, check_for_minus, maybe_lex_dot_access"]}
{"id": "C59", "title": "Incremental and clean builds agree", "statement": "After any history of edits and builds, a build with the caches that are there succeeds or fails like a build without any caches, with the same errors and the same compiled modules.", "quantifier": "all histories of edits and builds, all module graphs", "why_tests_cant": "unbounded histories", "anchors": ["compiler-core/src/build/project_compiler.rs: compile", "compiler-core/src/build/package_compiler.rs: compile, analyse", "compiler-core/src/build/package_loader.rs: PackageLoader::run"]}
{"id": "C60", "title": "Interrupted builds do no harm", "statement": "However builds were interrupted, no later build fails because a cache file is missing.", "quantifier": "all histories of edits, builds and interruptions", "why_tests_cant": "all crash points", "anchors": ["compiler-core/src/build/package_loader.rs: PackageLoader::run, CacheFiles::delete", "compiler-core/src/build/package_compiler.rs: encode_and_write_metadata"]}
{"id": "C61", "title": "Errors of a package are complete and isolated", "statement": "In one build of a package every module to compile is analysed with the results of its imports, except those that import a module with errors or a skipped one; the build fails exactly if a module has errors, an import is missing or code cannot be generated, with all errors and skipped modules in order; only a build that succeeds writes caches, and for exactly the modules it compiled.", "quantifier": "all packages, caches and analyses", "why_tests_cant": "all module graphs and combinations of errors", "anchors": ["compiler-core/src/build/package_compiler.rs: compile, analyse, encode_and_write_metadata"]}
{"id": "C62", "title": "Erlang source reads back as what was built", "statement": "Whenever the methods of the Erlang source builder are called as its documentation says, for whatever nesting of expressions, patterns, types and forms, none of the calls panics, and Erlang reads the text that comes out as exactly the module that was built: the same forms in the same order, every operator with the same operands, every list, call, clause and segment with the same parts.", "quantifier": "all modules that can be built by calls that follow the protocol", "why_tests_cant": "unbounded nesting; parentheses, separators and closing brackets depend on the position, which is only settled by later calls", "anchors": ["erlang-generation/src/lib.rs: impl ErlangBuilder for ErlangSourceBuilder", "erlang-generation/src/lib.rs: new_expression, new_pattern, new_type, close_currently_open_item, pop_leftover_items"]}
{"id": "C63", "title": "String literals and documentation keep their text in Erlang", "statement": "The Erlang literal written for a Gleam string literal denotes the same sequence of characters, and the literal written for documentation denotes the documentation itself.", "quantifier": "all string literals that Gleam accepts, all documentation texts", "why_tests_cant": "all combinations of backslashes, quotes and escapes", "anchors": ["erlang-generation/src/lib.rs: escape_literal_string_content, do_print_string_content, doc_content"]}
{"id": "C64", "title": "Atoms keep their name in Erlang", "statement": "An atom that is written to Erlang source is read by Erlang as an atom of the same name.", "quantifier": "all names", "why_tests_cant": "all texts, among them keywords and names in need of quotes", "anchors": ["erlang-generation/src/lib.rs: quote_atom_name, is_erlang_reserved_word"]}
{"id": "C65", "title": "Names of type variables are told apart", "statement": "Two type variables get the same name in Erlang only if they are the same variable, and the name is an Erlang variable.", "quantifier": "all type variables", "why_tests_cant": "all numbers", "anchors": ["compiler-core/src/erlang.rs: id_to_type_var_str"]}
{"id": "C66", "title": "Specifications and records have the function's types", "statement": "The -spec of a function has the Erlang types of its arguments and its result; a type variable stays a variable unless it is used only once (alternatives of a Result counted together), when it is any(), so no variable of the spec is used only once; the fields of a record have their types with any() for every variable; Erlang reads the generated text as just that.", "quantifier": "all modules, functions and types, all records", "why_tests_cant": "all nestings of types and all patterns of sharing of variables", "anchors": ["compiler-core/src/erlang.rs: function_spec_attribute", "compiler-core/src/erlang.rs: type_var_ids", "compiler-core/src/erlang.rs: TypeGenerator", "compiler-core/src/erlang.rs: record_definition"]}
{"id": "C67", "title": "Definitions of types use their parameters", "statement": "The -type or -opaque of a custom type has its parameters in order; its alternatives are those of the constructors, or any() without constructors, and one with exactly the parameters no constructor uses if there are any; so every parameter is used, and no other variable; what is exported are the types that are defined, with their arity; Erlang reads just that.", "quantifier": "all custom types", "why_tests_cant": "all combinations of parameters, constructors and uses", "anchors": ["compiler-core/src/erlang.rs: type_definition", "compiler-core/src/erlang.rs: phantom_type_variables", "compiler-core/src/erlang.rs: type_export"]}
{"id": "C68", "title": "External types are given their parameters in order", "statement": "The -type of an external type with an Erlang type is that type applied to the parameters in the order of their declaration.", "quantifier": "all external types", "why_tests_cant": "depends on the numbers of the variables, which are different in every build", "anchors": ["compiler-core/src/erlang.rs: type_definition", "compiler-core/src/erlang.rs: phantom_type_variables"]}
{"id": "C69", "title": "Names of types and modules are told apart", "statement": "Different types of a module have different names in Erlang, different modules too, and no type has the name of a predefined type of Erlang.", "quantifier": "all legal names", "why_tests_cant": "all names", "anchors": ["compiler-core/src/erlang.rs: erl_safe_type_name", "erlang-generation/src/lib.rs: ErlangModuleName::new"]}
{"id": "C70", "title": "Generated Erlang does what the Gleam code does", "statement": "For a module that type checks, code is generated, Erlang reads it, and calling a function of it in Erlang calls the same functions of other modules with the same arguments in the same order as in Gleam, and then gives the same value or stops with an error that reports the kind, message, file, module, function, line and, for let assert, the value and spans.", "quantifier": "all modules of functions with integers, strings, lists, tuples, records, closures, case with guards, pipelines, use, let assert, panic and todo; all arguments; all behaviours of other modules", "why_tests_cant": "all programs, all arguments and all behaviours of the rest of the world", "anchors": ["compiler-core/src/erlang.rs: module_function", "compiler-core/src/erlang.rs: expression", "compiler-core/src/erlang.rs: int_division", "compiler-core/src/erlang.rs: case", "compiler-core/src/erlang.rs: clause_guard", "compiler-core/src/erlang.rs: let_assert", "compiler-core/src/erlang/pattern.rs: pattern", "compiler-core/src/ast/typed.rs: is_pure_value_constructor"]}
{"id": "C71", "title": "A generated module has the attributes, types and functions of its source", "statement": "The forms of a generated module are, in order: its name, the compile attribute, the exports of functions and types (if any), its documentation, a definition for each type, and for each function with code the file attribute, its specification, its documentation unless there is none (hidden if internal) and its code; functions that are unused, unsupported, or private and external have none.", "quantifier": "all legal modules", "why_tests_cant": "all combinations of publicity, documentation, externals and unused functions", "anchors": ["compiler-core/src/erlang.rs: module_document", "compiler-core/src/erlang.rs: module_function", "compiler-core/src/erlang.rs: module_documentation", "compiler-core/src/erlang.rs: function_doc_attribute", "compiler-core/src/erlang.rs: function_export"]}
{"id": "C72", "title": "Every exported function is defined", "statement": "Every function in the export attribute of a generated module has code in it (otherwise Erlang refuses the module).", "quantifier": "all legal modules", "why_tests_cant": "all combinations of constants and functions", "anchors": ["compiler-core/src/erlang.rs: function_export", "compiler-core/src/erlang.rs: find_private_functions_referenced_in_importable_constants", "compiler-core/src/erlang.rs: module_function"]}
{"id": "C73", "title": "Functions of public constants can be called from other modules", "statement": "A function of the module that an importable constant refers to, directly or through other constants, is exported, since the constant is replaced by its value in other modules.", "quantifier": "all legal modules and importable constants", "why_tests_cant": "all nestings of constants", "anchors": ["compiler-core/src/erlang.rs: find_referenced_private_functions", "compiler-core/src/erlang.rs: function_export"]}
{"id": "C74", "title": "Public external functions pass their arguments on", "statement": "Calling a public or internal external function through its module calls the Erlang function named in its attribute with the same arguments, and gives its value.", "quantifier": "all legal modules, external functions and arguments", "why_tests_cant": "all names and arguments", "anchors": ["compiler-core/src/erlang.rs: module_function", "compiler-core/src/erlang.rs: function_arguments_names"]}
{"id": "C75", "title": "Recording references never panics", "statement": "Whatever names, kinds and locations are registered while a module is analysed, and in whatever order, no method of the tracker of references panics, as long as every constant was begun before it is registered.", "quantifier": "all sequences of calls", "why_tests_cant": "petgraph panics on a node that does not exist; the sequences of calls are unbounded", "anchors": ["compiler-core/src/reference.rs: ReferenceTracker", "compiler-core/src/reference.rs: add_reference_edge", "compiler-core/src/reference.rs: register_constant"]}
{"id": "C76", "title": "Exactly the definitions that nothing public leads to are found unused", "statement": "When a module has been analysed, the functions, constants, types and constructors that are found unused, each once and with its name, kind and place, are exactly those that cannot be reached by references from something public or internal, however cyclic the references are and whatever imports are shadowed; and in whatever order the hash maps are gone through.", "quantifier": "all orderly sequences of calls (names are defined once, imports can be shadowed, only definitions refer), all iteration orders", "why_tests_cant": "call graphs with cycles and shadowing are unbounded, and the order of hash maps differs from run to run", "anchors": ["compiler-core/src/reference.rs: unused", "compiler-core/src/reference.rs: mark_entity_as_used", "compiler-core/src/reference.rs: create_node_and_maybe_shadow"]}
{"id": "C77", "title": "Exactly the imports that are not used are found unused", "statement": "When a module has been analysed, the imported modules, aliases, types, constructors and values that are found unused are exactly those that cannot be reached from something public; a module is used, too, when any definition refers to it by a qualified name.", "quantifier": "all orderly sequences of calls, all iteration orders", "why_tests_cant": "all combinations of imports, aliases, shadowing and references", "anchors": ["compiler-core/src/reference.rs: unused", "compiler-core/src/reference.rs: mark_referenced_imports_as_used", "compiler-core/src/reference.rs: register_module", "compiler-core/src/reference.rs: register_aliased_module", "compiler-core/src/reference.rs: register_module_reference_from_imported_entity"]}
{"id": "C78", "title": "Code is left out only for what is not used", "statement": "The positions of functions, constants and types for which no code is generated are exactly those of the definitions that nothing public leads to: never that of something public, and never that of something a definition that stays refers to.", "quantifier": "all orderly sequences of calls whose definitions start at different places, all iteration orders", "why_tests_cant": "call graphs are unbounded; a wrong position would be a missing function at run time", "anchors": ["compiler-core/src/type_/environment.rs: handle_unused", "compiler-core/src/reference.rs: unused"]}
{"id": "C79", "title": "One warning for everything unused, but none for what goes with its import", "statement": "Everything that is unused is warned about exactly once, by the warning of its kind with its name and place; except that nothing is said of an imported type, constructor, value or of an alias when the module itself is unused.", "quantifier": "all maps of unused entities", "why_tests_cant": "all combinations of kinds and orders", "anchors": ["compiler-core/src/type_/environment.rs: handle_unused"]}
{"id": "C80", "title": "References are kept completely and in order", "statement": "For every value, type and label the references kept are exactly those registered for it, in order; and for every module the places where its name is written: its imports, and the qualifiers of values and types, told apart by whether the qualifier is the last segment of the module's name.", "quantifier": "all sequences of calls", "why_tests_cant": "all interleavings of names; renaming in editors relies on completeness", "anchors": ["compiler-core/src/reference.rs: register_value_reference", "compiler-core/src/reference.rs: register_type_reference", "compiler-core/src/reference.rs: register_module_name_reference", "compiler-core/src/reference.rs: register_label_reference", "compiler-core/src/reference.rs: register_label_definition"]}
{"id": "C81", "title": "Types in messages and editors can be pasted into the code", "statement": "A type whose named types can be named in a module is printed for that module as text that, read there as an annotation, is the same type up to the names of its variables. Held to of every type whose named types were defined, imported, or are of the prelude or of an imported module, and whose variables get no keyword as a name.", "quantifier": "all modules with their imports, types and aliases, all types, all previous uses of the printer", "why_tests_cant": "imports, renaming, shadowing and aliases combine without bound", "anchors": ["compiler-core/src/type_/printer.rs: print_type", "compiler-core/src/type_/printer.rs: named_type", "compiler-core/src/type_/printer.rs: type_in_scope", "compiler-core/src/type_/printer.rs: maybe_register_reexport_alias", "compiler-core/src/parse.rs: parse_type", "compiler-core/src/type_/hydrator.rs: type_from_ast"]}
{"id": "C82", "title": "Every type variable has one name", "statement": "A printer prints a type variable by the name the programmer gave it. Any other variable keeps the name it got, which no other such variable gets, and that name is the first word of lowercase letters, shorter words first, that is not taken: given by the programmer, registered, or got by a variable before.", "quantifier": "all sequences of uses of a printer, all variables", "why_tests_cant": "any number of variables and names", "anchors": ["compiler-core/src/type_/printer.rs: type_variable", "compiler-core/src/type_/printer.rs: next_letter", "compiler-core/src/type_/printer.rs: register_type_variable"]}
{"id": "C83", "title": "Types in full", "statement": "A type printed without aliases is text that reads as that type with each named type by its own name, in its module by the name the module was last imported by, or else by the last segment of its name.", "quantifier": "all modules and types, whatever the printer did before", "why_tests_cant": "nesting and imports without bound", "anchors": ["compiler-core/src/type_/printer.rs: print_type_without_aliases", "compiler-core/src/type_/printer.rs: named_type"]}
{"id": "C84", "title": "Constructors and modules in messages", "statement": "A constructor is printed by its local name if it has one that nothing else took since; otherwise in its module, by the name that was last imported by or else by the last segment of its name. A module is printed the same way.", "quantifier": "all sequences of names coming into scope", "why_tests_cant": "shadowing in any order", "anchors": ["compiler-core/src/type_/printer.rs: print_constructor", "compiler-core/src/type_/printer.rs: named_constructor", "compiler-core/src/type_/printer.rs: print_module"]}
{"id": "C85", "title": "What stays locked", "statement": "A package keeps the version that the manifest has for it exactly if a requirement that is the same in gleam.toml and the manifest needs it, directly or through other packages of the manifest, and it is not a package that gleam.toml newly asks for. A dependency in both tables is an error. Finding out ends for every manifest without a package that requires itself.", "quantifier": "all configurations and manifests", "why_tests_cant": "graphs of packages of any shape", "anchors": ["compiler-core/src/config.rs: PackageConfig::locked", "compiler-core/src/config/stale_package_remover.rs: fresh_and_locked"]}
{"id": "C86", "title": "Changed requirements are not locked", "statement": "A package that was removed from gleam.toml, or whose required range changed there, is not locked, nor a package that only such packages require.", "quantifier": "all configurations and manifests", "why_tests_cant": "graphs of packages of any shape", "anchors": ["compiler-core/src/config.rs: PackageConfig::locked"]}
{"id": "C87", "title": "What an update unlocks", "statement": "Unlocking packages unlocks those that are locked and, again and again, locked packages that no requirement of the manifest names and that only unlocked packages require, whatever the order; without a manifest only the named ones. It always ends.", "quantifier": "all manifests, locked versions and lists of packages", "why_tests_cant": "the order of names and of packages that require each other", "anchors": ["compiler-cli/src/dependencies.rs: unlock_packages", "compiler-cli/src/dependencies.rs: find_deps_to_unlock"]}
{"id": "C88", "title": "Reported changes", "statement": "Between two manifests exactly the packages that are new or from another kind of source are reported as added, the missing ones as removed, those with another version or else another commit as changed; nothing is reported exactly if all packages are the same but for what they require. Requirements count as the same if each has its like in the other table, paths compared once links are followed.", "quantifier": "all pairs of manifests", "why_tests_cant": "all combinations of packages and sources", "anchors": ["compiler-core/src/manifest.rs: PackageChanges::between_manifests", "compiler-cli/src/dependencies.rs: is_same_requirements"]}
{"id": "C89", "title": "The manifest on disc", "statement": "After a command that resolves and downloads packages succeeds, the manifest on disc is the one that was resolved; after one that fails it is the one from before.", "quantifier": "all projects, solvers and commands", "why_tests_cant": "what changes between two runs is unbounded", "anchors": ["compiler-cli/src/dependencies/dependency_manager.rs: resolve_and_download_versions", "compiler-cli/src/dependencies/dependency_manager.rs: resolve_versions", "compiler-cli/src/dependencies.rs: cleanup"]}
{"id": "C90", "title": "Packages in build/packages", "statement": "After a command that succeeds, build/packages has for every package of the manifest from Hex its release of that version, and for every one from git the files of that commit.", "quantifier": "all sequences of commands, with failures and manifests from version control between them", "why_tests_cant": "sequences of commands", "anchors": ["compiler-cli/src/dependencies/dependency_manager.rs: resolve_and_download_versions", "compiler-cli/src/dependencies.rs: LocalPackages", "compiler-cli/src/dependencies.rs: remove_extra_packages", "compiler-cli/src/dependencies.rs: add_missing_packages", "compiler-core/src/hex.rs: ensure_package_in_build_directory"]}
{"id": "C91", "title": "Removing requirements", "statement": "gleam remove leaves in the manifest the requirements that gleam.toml still has, and of its packages, in their order, those that an unchanged one of them needs.", "quantifier": "all configurations and manifests", "why_tests_cant": "graphs of packages of any shape", "anchors": ["compiler-cli/src/dependencies.rs: remove_extra_requirements"]}
{"id": "C92", "title": "What resolution is asked", "statement": "Resolution is given the versions that stay locked but for those unlocked by the packages to update, and the dependencies of the project, of which locked git packages are asked for by their commit. Its result is the manifest, with the requirements of the project. If the requirements are those of the manifest and no path dependency was edited, the manifest stays whatever the solver would say.", "quantifier": "all projects, solvers and commands", "why_tests_cant": "solvers are a parameter", "anchors": ["compiler-cli/src/dependencies/dependency_manager.rs: perform_version_resolution", "compiler-cli/src/dependencies/dependency_manager.rs: resolve_versions"]}
{"id": "C93", "title": "Conflicting native files", "statement": "Copying the native files of a package fails exactly if two of its files are the same native file, a Gleam module and an .mjs file of the same path, Erlang files of the same name in any directories, or a Gleam module and an Erlang file that are the same Erlang module. The error names the first file, in the order of the walk, that conflicts with one before it, and that one. Whether it fails does not depend on the order of the walk or on earlier builds, and it never panics.", "quantifier": "all sets of files in all orders", "why_tests_cant": "all pairs of names, all orders of the walk", "anchors": ["compiler-core/src/build/native_file_copier.rs: NativeFileCopier::copy", "compiler-core/src/build/native_file_copier.rs: check_for_conflicting_javascript_modules", "compiler-core/src/build/native_file_copier.rs: check_for_conflicting_erlang_modules", "compiler-core/src/build/native_file_copier.rs: check_for_duplicate"]}
{"id": "C94", "title": "What is copied", "statement": "Exactly the native files whose copy is missing or older are copied, and the rest of the build directory stays. To be compiled are exactly the Erlang and Elixir files among them, in the order of their paths, and Elixir is asked for exactly if one of them is Elixir. In a different order of the walk the result is the same.", "quantifier": "all sets of files, destinations and times", "why_tests_cant": "all states of the build directory", "anchors": ["compiler-core/src/build/native_file_copier.rs: NativeFileCopier::run", "compiler-core/src/build/native_file_copier.rs: NativeFileCopier::copy"]}
{"id": "C95", "title": "Native files in the build directory", "statement": "After a build that succeeds the build directory has the native files of the project with their content, and no others.", "quantifier": "all sequences of edits and builds", "why_tests_cant": "sequences of edits and builds", "anchors": ["compiler-core/src/build/native_file_copier.rs: NativeFileCopier::copy", "compiler-core/src/build/package_compiler.rs: copy_project_native_files"]}
{"id": "C96", "title": "Native files are compiled", "statement": "After a build that succeeds the bytecode of every Erlang and Elixir file of the project is that of its content.", "quantifier": "all sequences of edits and builds", "why_tests_cant": "sequences of edits and builds", "anchors": ["compiler-core/src/build/native_file_copier.rs: NativeFileCopier::copy", "compiler-core/src/build/package_compiler.rs: copy_project_native_files", "compiler-core/src/build/package_compiler.rs: compile_erlang_to_beam"]}
{"id": "C97", "title": "Specifiers of packages", "statement": "`gleam add n` asks for any release, `n@a` and `n@a.b` for those from a.0.0 and a.b.0 on and before the next major one, and `n@v` for exactly the version v. What does not begin with a number, and what has more than two dots, is an error that names it.", "quantifier": "all names and versions", "why_tests_cant": "all versions, with and without a pre-release", "anchors": ["compiler-cli/src/dependencies.rs: parse_gleam_add_specifier"]}
{"id": "C98", "title": "What is added can be read again", "statement": "After `gleam add` succeeds gleam.toml and manifest.toml can be read, and the range that they have for a package that was added allows exactly the version found and what is compatible with it.", "quantifier": "all projects, specifiers, and versions found", "why_tests_cant": "all versions that can be found", "anchors": ["compiler-cli/src/add.rs: command", "compiler-cli/src/add.rs: version_to_string"]}
{"id": "C99", "title": "What adding packages changes", "statement": "`gleam add` changes, in the chosen table of gleam.toml and among the requirements of the manifest, the entries of the packages named, and nothing else. The two files then ask for the same, so that the next command need not resolve versions.", "quantifier": "all projects, specifiers and results of resolution", "why_tests_cant": "all contents of both files together", "anchors": ["compiler-cli/src/add.rs: command", "compiler-cli/src/dependencies.rs: parse_gleam_add_specifier", "compiler-cli/src/dependencies/dependency_manager.rs: resolve_and_download_versions"]}
{"id": "C100", "title": "Projects are not added to themselves", "statement": "Adding the project itself is the error CannotAddSelfAsDependency, and that error is given for nothing else.", "quantifier": "all projects and specifiers", "why_tests_cant": "all forms of specifiers", "anchors": ["compiler-cli/src/add.rs: command"]}
{"id": "C101", "title": "No name is declared twice in JavaScript", "statement": "In the JavaScript generated for a function no block, function or loop declares an identifier twice (which would be a SyntaxError), however often Gleam code binds a name again, and the functions and constants of a module have identifiers that differ when their names do.", "quantifier": "all bodies of functions, arguments and names of modules", "why_tests_cant": "all ways of nesting blocks, functions, branches and bindings of the same name", "anchors": ["compiler-core/src/javascript/expression.rs: Scope::advance_counter", "compiler-core/src/javascript/expression.rs: Generator::next_local_var", "compiler-core/src/javascript.rs: maybe_escape_identifier", "compiler-core/src/javascript.rs: fun_arguments"]}
{"id": "C102", "title": "References in JavaScript are to what Gleam refers to", "statement": "Each variable in generated JavaScript is, by the scoping of JavaScript with its hoisting, the one that was bound by what the name refers to in Gleam: the innermost latest binding, argument, or definition of the module.", "quantifier": "all bodies of functions, arguments and names of modules", "why_tests_cant": "all ways of shadowing names in nested code", "anchors": ["compiler-core/src/javascript/expression.rs: Scope", "compiler-core/src/javascript/expression.rs: Generator::local_var", "compiler-core/src/javascript/expression.rs: Generator::block", "compiler-core/src/javascript/expression.rs: Generator::tail_call_loop", "compiler-core/src/javascript.rs: register_module_definitions_in_scope"]}
{"id": "C103", "title": "Names in JavaScript are identifiers", "statement": "Each variable and parameter in generated JavaScript is an identifier of ECMAScript and not one of its reserved words.", "quantifier": "all bodies of functions and arguments", "why_tests_cant": "all names", "anchors": ["compiler-core/src/javascript.rs: is_usable_js_identifier", "compiler-core/src/javascript.rs: maybe_escape_identifier", "compiler-core/src/javascript.rs: fun_arguments", "compiler-core/src/javascript/expression.rs: Generator::local_var"]}
{"id": "C104", "title": "Changes of path dependencies are noticed", "statement": "A command that uses the manifest without resolving versions has one that is for the requirements of the project, and gleam.toml of each path dependency has the text that versions were resolved with when that manifest was made, whatever commands ran, failed or succeeded before and whatever files were written between them.", "quantifier": "all histories of commands and of writing files, all orders of maps", "why_tests_cant": "all histories", "anchors": ["compiler-cli/src/dependencies.rs: path_dependency_configs_unchanged", "compiler-cli/src/dependencies.rs: is_same_requirements", "compiler-cli/src/dependencies/dependency_manager.rs: resolve_versions"]}
{"id": "C105", "title": "Commands come to rest", "statement": "When nothing is written any more, commands that succeed stop resolving versions: after as many as there are path dependencies, and one more, the manifest is used as it is.", "quantifier": "all projects, manifests and fingerprints, all orders of maps", "why_tests_cant": "all numbers of path dependencies and orders", "anchors": ["compiler-cli/src/dependencies.rs: path_dependency_configs_unchanged", "compiler-cli/src/dependencies/dependency_manager.rs: resolve_versions"]}
{"id": "C106", "title": "manifest.toml reads back", "statement": "A manifest that was written to manifest.toml is read back as the same packages and requirements: the same names, versions, build tools, applications, dependencies and sources, and the same places for paths.", "quantifier": "all manifests with valid package names, versions and ranges, all texts in them, all paths of the project", "why_tests_cant": "all texts", "anchors": ["compiler-core/src/manifest.rs: Manifest::to_toml", "compiler-core/src/requirement.rs: Requirement::to_toml", "compiler-core/src/requirement.rs: Requirement deserialisation", "compiler-core/src/manifest.rs: Base16Checksum", "compiler-core/src/io.rs: make_relative"]}
{"id": "C107", "title": "The text of manifest.toml is steady", "statement": "The text of manifest.toml does not depend on the order of packages, requirements and dependencies; writing what was read gives the same text; it is in alphabetical order; and a package more adds one line and changes no other.", "quantifier": "all orders of all manifests; all manifests whose texts need no escapes in TOML", "why_tests_cant": "all orders and manifests", "anchors": ["compiler-core/src/manifest.rs: Manifest::to_toml"]}
{"id": "C108", "title": "Paths of imports in JavaScript", "statement": "The path that a generated JavaScript module imports another module by is relative, and leads from the directory of its own file to the file of that module: in the same package, in another package, or the prelude of its own package. Different modules have different paths.", "quantifier": "all packages and module names with any number of segments, on either side", "why_tests_cant": "all depths of both modules", "anchors": ["compiler-core/src/javascript.rs: Generator::import_path", "compiler-core/src/codegen.rs: JavaScript::js_module"]}
{"id": "C109", "title": "Names bound by JavaScript imports", "statement": "The imports of a generated JavaScript module bind precisely the names that its code refers to: modules by their name or alias, unqualified values, external functions, parts of the prelude and constants of variants, each to the export with the right name of the right file, and no name is bound twice. The class of a variant is left out if only its constant is used. The names that are exported next to the imports are those of the public external functions, once each.", "quantifier": "all modules that pass analysis, all imports and aliases, all external functions, all uses of the prelude and of variants", "why_tests_cant": "all modules", "anchors": ["compiler-core/src/javascript.rs: Generator::collect_imports", "compiler-core/src/javascript.rs: Generator::register_import", "compiler-core/src/javascript.rs: Generator::register_external_function", "compiler-core/src/javascript.rs: Generator::register_prelude_usage", "compiler-core/src/javascript/import.rs: Imports::register_module", "compiler-core/src/javascript/import.rs: Imports::filter_unused_variants", "compiler-core/src/javascript/import.rs: Imports::into_doc", "compiler-core/src/javascript/expression.rs: record_constructor"]}
{"id": "C110", "title": "JavaScript imports do not depend on the order of tables", "statement": "Compiling a module twice gives the same imports, whatever the order in which the compiler's hash tables are iterated.", "quantifier": "all modules, all orders of iteration of the table of constants", "why_tests_cant": "orders of iteration are random", "anchors": ["compiler-core/src/javascript.rs: Generator::compile", "compiler-core/src/javascript.rs: UsageTracker", "compiler-core/src/javascript/import.rs: Imports::into_doc"]}
{"id": "C111", "title": "The .app file can be read by Erlang", "statement": "The .app file that is written for a package is one Erlang term that says what it should: the package's name, version and description, the module and argument that it is started with, as applications the dependencies by the names that Erlang knows them by (and the development dependencies if asked for) and the extra applications, and as modules each module of the package once, those compiled now, those not recompiled and those in Erlang, by their Erlang names. The lists are in order.", "quantifier": "all configurations, all names and descriptions, all modules", "why_tests_cant": "all texts", "anchors": ["compiler-core/src/codegen.rs: ErlangApp::render", "compiler-core/src/erlang.rs: escape_atom_string", "compiler-core/src/build.rs: module_erlang_name"]}
{"id": "C112", "title": "The .app file is the same after each build", "statement": "The text of the .app file does not depend on the order of tables nor on which of the modules were compiled in this build and which were not.", "quantifier": "all configurations, all orders, all ways to split the modules", "why_tests_cant": "all orders and splits", "anchors": ["compiler-core/src/codegen.rs: ErlangApp::render"]}
{"id": "C113", "title": "Tables of the command line are aligned and complete", "statement": "A printed table has a line of headers, a line of hyphens under them and a line for each row, in order, with all cells in full. In all lines the cells of a column start at the same place, which is two spaces behind the longest cell of the column before, and nothing is behind the last cell. Cells without spaces can be read back from the text. Printing never panics, whatever the texts and the lengths of the rows.", "quantifier": "all headers, all rows of printable characters (panics: all texts)", "why_tests_cant": "all widths of cells and all numbers of columns", "anchors": ["compiler-cli/src/text_layout.rs: space_table"]}
{"id": "C114", "title": "Reports about versions list each package once, by name", "statement": "The list of packages of a manifest has each package with its version, in the order of the manifest. The reports about outdated packages and new major versions say how many there are and list each of them once, with the current and the latest version, in the order of their names, whatever the order of the hash map they come in; a report about no outdated packages has no table.", "quantifier": "all packages and versions, all orders of hash maps", "why_tests_cant": "all orders", "anchors": ["compiler-cli/src/dependencies.rs: list_manifest_packages", "compiler-cli/src/dependencies.rs: format_versions_and_extract_longest_parts", "compiler-cli/src/dependencies.rs: pretty_print_outdated_versions", "compiler-cli/src/dependencies.rs: pretty_print_major_versions_available"]}
{"id": "C115", "title": "Names are added to imports", "statement": "When an unqualified name or type is added to an import, the edited module has the same text except that the import has that item as its last one; the module, its other name, and the other items stay as they are. This holds however the import is laid out: with or without braces, items, a trailing comma, another name, line breaks and comments; adding never panics.", "quantifier": "all modules, all imports and layouts, all items", "why_tests_cant": "all layouts of imports", "anchors": ["language-server/src/edits.rs: insert_unqualified_import", "language-server/src/edits.rs: insert_into_unbraced_import", "language-server/src/edits.rs: insert_into_braced_import", "language-server/src/edits.rs: find_last_char_before_closing_brace"]}
{"id": "C116", "title": "New imports are definitions of their own", "statement": "When the language server adds an import to a module, the edited module is the old one, with all its definitions and their attributes unchanged, with the new import as its first definition: directly before the old first definition on a line of its own if that is an import, and otherwise at the start of the module with an empty line behind it.", "quantifier": "all modules, as any comments and blank space, any definitions of any kinds with any attributes, in any order, and all names of modules", "why_tests_cant": "Tests add imports to a few modules, none of which has an attribute on its first import; whether an edit is right depends on the order of all definitions of all kinds and on what stands before and behind them.", "anchors": ["language-server/src/edits.rs:15-90", "language-server/src/code_action.rs:4762-4782", "language-server/src/rename.rs:422-452"]}
