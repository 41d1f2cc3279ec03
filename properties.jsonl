{"id": "C01", "title": "Accepted certificates prove their goal", "statement": "If checking a certificate against a set of known facts plus the negated goal succeeds, then every interpretation that satisfies the facts satisfies the goal; in particular no certificate is accepted when facts plus negated goal are satisfiable.", "quantifier": "every list of certificate steps, every set of facts and every goal, every interpretation (types may be empty)", "why_tests_cant": "Tests check that known-good certificates pass and a handful of bad ones fail; a malicious or buggy certificate is an arbitrary step list, an infinite space.", "anchors": ["src/certificate_trace.rs: TraceChecker::check, check_step, check_witness_step", "src/certificate.rs: Certificate::check_with_usage", "src/kernel/checker.rs"]}
{"id": "C02", "title": "Accepting a clause is sound", "statement": "Whenever the checker, after any history of clause insertions, reports a clause as following directly from what it has (or reports a contradiction), that clause (or falsity) holds in every interpretation in which all inserted clauses hold.", "quantifier": "every history of insertions, every queried clause, every interpretation", "why_tests_cant": "The checker state is the result of an unbounded history; soundness is a statement about all interpretations.", "anchors": ["src/kernel/checker.rs: insert_clause, check_clause_direct, has_contradiction"]}
{"id": "C03", "title": "Equality graph soundness", "statement": "After any sequence of term insertions and asserted (in)equalities and clauses, two terms are reported equal only if their equality follows from the assertions, a literal is evaluated true/false only if it follows, and a contradiction is reported only if the assertions are unsatisfiable.", "quantifier": "every sequence of insert_term / insert_clause / set_terms_equal / set_terms_not_equal operations, of any length", "why_tests_cant": "Congruence closure runs an unbounded worklist of merges; tests exercise a few fixed graphs.", "anchors": ["src/kernel/equality_graph.rs: EqualityGraph"]}
{"id": "C04", "title": "Equality graph is closed under congruence", "statement": "After any sequence of operations with all pending work processed and no contradiction: applications with equal heads and equal arguments are equal, and equality is an equivalence, so the graph does not miss consequences of congruence.", "quantifier": "every operation history", "why_tests_cant": "Needs an invariant across all merge orders.", "anchors": ["src/kernel/equality_graph.rs: remap_group, process_pending"]}
{"id": "C05", "title": "Clause normalization keeps the meaning", "statement": "Normalizing a clause (dropping impossible literals, detecting tautologies, sorting, deduplicating, renumbering variables) yields a clause with the same models, even when types may be empty; a clause reported as tautology holds everywhere.", "quantifier": "every clause, every interpretation, including empty types", "why_tests_cant": "Meaning is a quantification over all interpretations and variable assignments.", "anchors": ["src/kernel/clause.rs: normalize_with_pinned, is_tautology, is_droppable_impossible_literal, canonicalize_with_pinned"]}
{"id": "C06", "title": "Term normalization keeps the meaning and is idempotent", "statement": "Normalizing a term (beta, eta, double negation, ordering the sides of a fully applied equality) produces a term with the same value in every interpretation, and normalizing twice equals normalizing once.", "quantifier": "every term and every interpretation", "why_tests_cant": "Terms are unboundedly deep; idempotence interacts with rewriting order.", "anchors": ["src/kernel/term_normalization.rs: normalize_term, beta_reduce_subterms, eta_reduce_single_lambda"]}
{"id": "C07", "title": "Equality resolution and factoring are sound", "statement": "Every clause produced by equality resolution or equality factoring from a clause holds in every interpretation where the premise holds.", "quantifier": "every clause, every inference position", "why_tests_cant": "Universally quantified over clauses and interpretations.", "anchors": ["src/kernel/inference.rs: find_equality_resolutions, find_equality_factorings"]}
{"id": "C08", "title": "Injectivity inference is sound", "statement": "Every clause produced by the injectivity inference from a clause `f(a..) != f(b..)` holds wherever the premise holds.", "quantifier": "every clause and interpretation", "why_tests_cant": "As above", "anchors": ["src/kernel/clause.rs: find_injectivities"]}
{"id": "C09", "title": "Extensionality inference is sound", "statement": "Every clause produced by the extensionality inference holds in every interpretation in which the premise holds.", "quantifier": "every clause and interpretation, including clauses whose variables are types", "why_tests_cant": "A counterexample needs a clause shape (type variable shared through variable types) nobody writes by hand.", "anchors": ["src/kernel/clause.rs: find_extensionality"]}
{"id": "C10", "title": "Boolean reduction is sound", "statement": "Every clause set produced by a boolean reduction of a literal (and/or/not/equality of booleans/if-then-else/quantifiers) is implied by the premise.", "quantifier": "every clause, literal index and reduction kind, every interpretation", "why_tests_cant": "Universally quantified", "anchors": ["src/kernel/clause.rs: boolean_reduction_at_with_options"]}
{"id": "C11", "title": "Ground clause identifiers are canonical", "statement": "The canonical identifier computed from a list of ground literals denotes an equivalent disjunction, does not depend on the order or multiplicity of the literals, and is True/False only if the disjunction is valid/unsatisfiable by reflexivity or complementary literals.", "quantifier": "every list of ground literals", "why_tests_cant": "All permutations and multiplicities of unbounded lists", "anchors": ["src/kernel/clause_set.rs: ClauseId::new"]}
{"id": "C12", "title": "Clause set index stays consistent", "statement": "After any sequence of insertions and removals, the clause set contains exactly the clauses inserted and not removed, and its per-literal and per-group indexes list exactly those clauses.", "quantifier": "every operation sequence", "why_tests_cant": "Histories are unbounded", "anchors": ["src/kernel/clause_set.rs: ClauseSet::insert, remove, remove_literal, remove_group, validate"]}
{"id": "C13", "title": "Instantiating a clause is sound", "statement": "Replacing the free variables of a true clause by terms of the right types gives a true clause; replacement is simultaneous and does not capture binders.", "quantifier": "every clause, every well-typed replacement, every interpretation", "why_tests_cant": "Capture and sequential-replacement bugs need particular shapes", "anchors": ["src/kernel/variable_map.rs: specialize_term, specialize_clause, apply_to_term", "src/kernel/term.rs: replace_variable, replace_variables"]}
{"id": "C14", "title": "Matching returns a correct witness", "statement": "If matching a general term against a special term succeeds, instantiating the general term with the returned map gives the special term up to swapping the two sides of equalities.", "quantifier": "every pair of terms and every starting map", "why_tests_cant": "Infinite term space", "anchors": ["src/kernel/variable_map.rs: match_terms, match_var"]}
{"id": "C15", "title": "Unification returns a unifier", "statement": "If unification of two terms succeeds, applying the resulting maps to the two terms gives the same term (up to the two sides of equalities).", "quantifier": "every pair of terms", "why_tests_cant": "Infinite term space; occurs-check and remapping interplay", "anchors": ["src/kernel/unifier.rs: unify_internal, unify_variable, remap"]}
{"id": "C16", "title": "Bound-variable operations obey substitution semantics", "statement": "Opening a binder with a term, shifting, and abstracting a free variable behave like capture-avoiding substitution: opening then abstracting a fresh variable is the identity, opening agrees with the semantic environment extension, and type application agrees with opening.", "quantifier": "every term, depth and index", "why_tests_cant": "Infinite term space with off-by-one hazards", "anchors": ["src/kernel/term.rs: open_bound, shift_bound, substitute_bound, convert_free_to_bound, type_apply_with_arg"]}
{"id": "C17", "title": "Flat term encoding round-trips", "statement": "Building an application or binder from two parts and decomposing it returns exactly those parts, and structural equality of the stored form coincides with equality of the tree, for all terms that can be built.", "quantifier": "every pair of well-formed terms including very large ones", "why_tests_cant": "16-bit offsets only fail for terms with more than 65535 components", "anchors": ["src/kernel/term.rs: apply, pi, lambda, forall, exists, decompose, from_components"]}
{"id": "C18", "title": "Term ordering is a total order", "statement": "The ordering used to orient equations and sort literals is a total order: antisymmetric, transitive, and only identical terms compare equal.", "quantifier": "every pair/triple of terms", "why_tests_cant": "Infinite", "anchors": ["src/kernel/term.rs: extended_kbo_cmp, multi_weight, kbo_helper"]}
{"id": "C19", "title": "Strict KBO is stable under instantiation", "statement": "If s is strictly greater than t in the strict ordering, every instance of s is strictly greater than the corresponding instance of t, so a rewrite rule never becomes increasing.", "quantifier": "every pair of terms and every substitution", "why_tests_cant": "Infinite; counters wrap only for large terms", "anchors": ["src/kernel/term.rs: kbo_cmp, multi_weight, dominates"]}
{"id": "C20", "title": "Variable renumbering is a consistent renaming", "statement": "Normalizing variable ids renames the variables of a clause injectively so that each variable's type mentions only earlier variables and ids are dense, and renaming-equivalent inputs give the same output.", "quantifier": "every clause with acyclic variable types", "why_tests_cant": "Infinite clause space", "anchors": ["src/kernel/term.rs: normalize_var_ids_with_context, apply_var_renumbering", "src/kernel/local_context.rs: remap, validate_variable_ordering"]}
{"id": "C21", "title": "Variables are only erased over inhabited types", "statement": "Whenever the checker treats a type as inhabited (and therefore drops a universally quantified variable of that type) there is an element of the type in every interpretation of the known clauses and every instance of its type parameters.", "quantifier": "every history of clauses and every type", "why_tests_cant": "Needs interpretations with empty types", "anchors": ["src/kernel/checker.rs: mark_inhabited_from_clause, eliminated_vars_inhabited", "src/kernel/kernel_context.rs: provably_inhabited, find_inhabitant_with_seen", "src/kernel/symbol_table.rs: record_inhabited_type_constructor"]}
{"id": "C22", "title": "Goal partition strings round-trip and partition goals", "statement": "Printing a parsed bucket filter and parsing it again gives the same filter; a filter accepts exactly the buckets in one of its written ranges; every goal lands in exactly one bucket below 100, so running the filters of any cover of 0-99 verifies every goal.", "quantifier": "every string and every goal name", "why_tests_cant": "Infinite strings", "anchors": ["src/goal_partition.rs: GoalBucketFilter, goal_bucket"]}
{"id": "C23", "title": "Support order is a correct reordering", "statement": "The order suggested for a list of clauses is a permutation of all of them in which every unit that supports an earlier-listed dependent clause comes before it; nothing is returned when the constraints are cyclic or the order would not change.", "quantifier": "every list of clauses and support relation", "why_tests_cant": "All graphs", "anchors": ["src/proof_order.rs: unit_support_order"]}
{"id": "C24", "title": "Each stored certificate is consumed at most once", "statement": "Over any sequence of goal lookups and removals, the certificate worklist returns only unconsumed certificates for that goal, and the leftover list is exactly those never consumed, in original order.", "quantifier": "every store and every sequence of lookups/removals", "why_tests_cant": "Histories unbounded", "anchors": ["src/certificate.rs: CertificateWorklist"]}
{"id": "C25", "title": "A crash while saving never loses verified certificates", "statement": "If the process stops at any point while saving the build cache, reloading yields for every module either the old or the new certificates, and never a manifest entry that vouches for a module whose certificates are gone.", "quantifier": "every crash point of every save", "why_tests_cant": "Crash points cannot be enumerated by unit tests", "anchors": ["src/build_cache.rs: save_merging_old, load", "src/certificate.rs: CertificateStore::save, load", "src/manifest.rs: PackageManifest::save"]}
{"id": "C26", "title": "Manifest save is atomic", "statement": "If the process stops at any point while saving a package manifest, reloading yields either exactly the old or exactly the new manifest.", "quantifier": "every crash point", "why_tests_cant": "Crash points", "anchors": ["src/manifest.rs: PackageManifest::save"]}
{"id": "C27", "title": "Cache merging never overwrites fresh results", "statement": "Merging old cache entries into a new cache keeps every new entry, adds exactly the missing ones, is idempotent, and merging worker updates yields for each module the last update.", "quantifier": "every pair of caches", "why_tests_cant": "Infinite", "anchors": ["src/build_cache.rs: merge_certificates_from, merge_missing_manifests_from, merge_updates_from, dependency manifests"]}
{"id": "C28", "title": "Module names map to unique files", "statement": "A module's dotted name, its source path and its certificate path determine each other: distinct modules never share a certificate file and parsing a printed name returns it.", "quantifier": "every module name and path", "why_tests_cant": "Infinite names", "anchors": ["src/build_cache.rs: cert_path_for_descriptor, descriptor_for_source_path, source_path_for_descriptor", "src/module.rs: ModuleDescriptor"]}
{"id": "C29", "title": "Hover lookup finds the token under the cursor", "statement": "For tokens that do not overlap, looking up a position returns the token whose span contains it and returns nothing when there is none.", "quantifier": "every set of tokens and every position", "why_tests_cant": "Infinite", "anchors": ["src/syntax/token_map.rs: TokenMap::get"]}
{"id": "C30", "title": "The server's copy of a document follows the editor", "statement": "After any sequence of incremental edits, the server's text equals the text the editor holds under the LSP position rules (UTF-16 columns).", "quantifier": "every document and every edit sequence", "why_tests_cant": "Histories and Unicode content unbounded", "anchors": ["src/server/live_document.rs: LiveDocument::change"]}
{"id": "C31", "title": "Edited lines map back to the right saved line", "statement": "After any edits since the last save, the saved-line index reported for a live line is the saved index of the nearest line at or above it that is untouched since the save, saved indexes are strictly increasing, and a line that carries a saved index has exactly the saved text.", "quantifier": "every edit sequence", "why_tests_cant": "Histories", "anchors": ["src/server/live_document.rs: get_env_line, save, change"]}
{"id": "C32", "title": "Stack levels address the right variable", "statement": "Under scoped use (fresh names, last-in first-out removal) every variable's level is its position, levels are dense and names/types come back in order.", "quantifier": "every sequence of scoped operations", "why_tests_cant": "Histories", "anchors": ["src/elaborator/stack.rs: Stack"]}
{"id": "C33", "title": "The termination check only accepts terminating definitions", "statement": "If the termination checker accepts a recursive definition then some argument position strictly decreases (by constructor destructuring) at every recursive call, so evaluation terminates on every input.", "quantifier": "every definition body and every input value", "why_tests_cant": "All programs and inputs", "anchors": ["src/elaborator/termination_checker.rs: TerminationChecker"]}
{"id": "C34", "title": "Fingerprint index never misses a match", "statement": "If a stored literal/term and a query have a common instance (for the specializer: the stored one is an instance of the query), the fingerprint index returns it.", "quantifier": "every set of stored terms and every query", "why_tests_cant": "False negatives need specific shapes", "anchors": ["src/kernel/fingerprint.rs: FingerprintUnifier::find_unifying, FingerprintSpecializer::find_specializing"]}
{"id": "C35", "title": "Discrimination tree keys are faithful", "statement": "Two terms (pairs of terms, clauses) get the same key only if they are identical, no key is a proper prefix of another key of the same kind, and reading a key back yields the edges that were written.", "quantifier": "every pair of terms", "why_tests_cant": "Infinite", "anchors": ["src/kernel/pdt.rs: Edge::append_to, Edge::from_bytes, key_from_term, key_from_pair, key_from_clause"]}
{"id": "C36", "title": "Literal index remembers every inserted literal", "statement": "After inserting any sequence of literals, looking up an instance of any inserted literal finds a generalization.", "quantifier": "every insertion sequence", "why_tests_cant": "Two literals with equal structure but different variable types or sign collide", "anchors": ["src/kernel/pdt.rs: LiteralSet::insert, find_generalization, Pdt::insert_pair"]}
{"id": "C37", "title": "The passive queue and its clause store stay in sync", "statement": "Over any sequence of pushes, pops (all variants) and simplifications, every pending step is popped exactly once, in an order where a popped step has a maximal score among the pending, and the out-of-sync panic is unreachable.", "quantifier": "every operation sequence and scoring", "why_tests_cant": "Histories", "anchors": ["src/prover/passive_set.rs: PassiveSet"]}
{"id": "C38", "title": "Contradictions are always tried first", "statement": "The score order is total and any step that is a contradiction outranks every step that is not.", "quantifier": "every pair of feature vectors", "why_tests_cant": "Infinite floats", "anchors": ["src/prover/score.rs: Score"]}
{"id": "C39", "title": "Pruning a proof trace keeps its support", "statement": "Removing unreferenced auxiliary steps from a trace keeps all other steps in order with their premises pointing at the same steps, and never panics on a trace whose premises point backwards.", "quantifier": "every trace", "why_tests_cant": "Infinite", "anchors": ["src/certificate_trace.rs: without_unreferenced_auxiliary_steps"]}
{"id": "C40", "title": "Project views are consistent snapshots", "statement": "Under every interleaving of readers and (conditional) mutators, a view's project state is the state after exactly `epoch` mutations and a conditional mutation that succeeds ran on exactly the state of the epoch it named.", "quantifier": "every number of tasks and every interleaving", "why_tests_cant": "Schedules", "anchors": ["src/server/project_manager.rs: ProjectManager"]}
{"id": "C41", "title": "Mutating the project cancels every outstanding build", "statement": "Once a mutation has completed, every build token handed out before it is cancelled.", "quantifier": "every interleaving", "why_tests_cant": "Race needs a precise schedule", "anchors": ["src/server/project_manager.rs: mutate_with_epoch"]}
{"id": "C42", "title": "A refused conditional mutation has no effect", "statement": "If a conditional mutation returns an error, the project, the epoch and the current build token are as if it had never been called; in particular the current token is not left cancelled.", "quantifier": "every interleaving", "why_tests_cant": "Race needs a precise schedule", "anchors": ["src/server/project_manager.rs: mutate_if_epoch_with_epoch"]}
{"id": "C43", "title": "Scanning covers the input", "statement": "Scanning any text yields tokens in order, non-overlapping, on character boundaries, whose texts together with the skipped spaces and tabs spell every line exactly; every line ends in a newline token.", "quantifier": "every input string (any Unicode)", "why_tests_cant": "Infinite strings", "anchors": ["src/syntax/token.rs: Token::scan_with_start_line, Token::text"]}
{"id": "C44", "title": "Generalization lookup cannot crash and is sound", "statement": "Looking up a concrete clause in the generalization set never panics, and returns only ids of clauses with that concrete clause as an instance.", "quantifier": "every clause set and every concrete query", "why_tests_cant": "Infinite", "anchors": ["src/kernel/generalization_set.rs: GeneralizationSet"]}
{"id": "C45", "title": "Parallel module results merge deterministically", "statement": "Whatever order worker results arrive in, they are merged exactly once each in index order, so status, metrics and events are the same as for a sequential build.", "quantifier": "every arrival order (permutation)", "why_tests_cant": "Schedules", "anchors": ["src/builder.rs: merge_pipeline_result, merge_module_build_result"]}
{"id": "C46", "title": "A skipped module was verified with the same sources", "statement": "When a build skips a module as unchanged, some earlier build recorded exactly the same content for it and for every (transitive) dependency.", "quantifier": "every history of builds and edits", "why_tests_cant": "Histories", "anchors": ["src/builder.rs: try_skip_unchanged_module", "src/build_cache.rs: manifest_matches, record_unchanged, record_package_state"]}
{"id": "C47", "title": "The equality graph keeps accepting what it was told", "statement": "A ground clause that was inserted into the equality graph is accepted by check_clause at any later time.", "quantifier": "every operation history", "why_tests_cant": "Depends on the interleaving of later insertions.", "anchors": ["src/kernel/equality_graph.rs: check_clause, insert_clause_normalized, resolve"]}
{"id": "C48", "title": "Trimming a certificate to its consumed steps keeps it accepted", "statement": "If the trace checker accepts a certificate after consuming some number of steps, the certificate cut to that prefix is accepted too, with the same usage.", "quantifier": "every trace, every checker state and every behaviour of the single steps", "why_tests_cant": "Unbounded traces and states", "anchors": ["src/certificate.rs: Certificate::trim_to_consumed_prefix", "src/certificate_trace.rs: TraceChecker::check"]}
{"id": "C49", "title": "Substitution-invariant order", "statement": "The comparison behind the generalization set is a total order on typed concrete terms, and terms that compare keep their order under every type-respecting substitution; hence every typed instance of an inserted clause is found, in any order of its literals and of their sides.", "quantifier": "every pair of terms, every substitution, every clause set and instance", "why_tests_cant": "Infinitely many terms, substitutions and clause sets", "anchors": ["src/kernel/generalization_set.rs: sub_invariant_term_cmp, all_generalized_forms, specialized_form"]}
{"id": "C50", "title": "Printed tokens scan back", "statement": "Tokens printed with spaces between them scan to the same tokens, and every token type prints as a text that scans to that type; what the scanner returns is the longest token of a declarative lexicon at every position, and is the only such list of tokens.", "quantifier": "every list of tokens, every text", "why_tests_cant": "Infinitely many texts", "anchors": ["src/syntax/token.rs: Token::scan, TokenType::to_str, keyword_map"]}
{"id": "C51", "title": "The checker is sound on clauses without type variables", "statement": "For clauses whose variables and equations have types without type variables, every rule the checker applies (normalization, boolean reduction, equality resolution and factoring, injectivity, extensionality, matching, congruence closure) yields clauses of that kind again and is sound; so after any history of insertions of true clauses the checker has no contradiction and confirms only true clauses.", "quantifier": "every interpretation, every kernel context, every history, every fuel", "why_tests_cant": "Infinitely many clauses and histories; truth in all interpretations", "anchors": ["src/kernel/checker.rs: insert_clause, check_clause", "src/kernel/unifier.rs: Unifier", "src/kernel/inference.rs", "src/kernel/generalization.rs"]}
{"id": "C52", "title": "Validated claims follow from their generic clause", "statement": "When a claim passes the payload validation, every entry of its variable map has the type its variable expects, every variable and literal of the generic and the specialized clause is well-typed, and the specialized clause is true in every interpretation in which the generic clause is.", "quantifier": "every claim, kernel context, interpretation and fuel", "why_tests_cant": "Infinitely many claims; truth in all interpretations", "anchors": ["src/kernel/certificate_step.rs: validate_checker_payload, validate_clause_well_typed, validate_var_map_types, term_has_expected_type", "src/kernel/term.rs: checked_type_with_context"]}
{"id": "C53", "title": "The expression parser keeps its tokens and is stable under printing", "statement": "Parsing an expression ends; it reads the tokens up to the terminator it returns and the expression has exactly these tokens in order (newlines aside), and printing a parsed expression and parsing it again, whatever follows, gives the same expression.", "quantifier": "every list of tokens, every kind of expression, every terminator but else", "why_tests_cant": "Infinitely many token lists, nested without bound", "anchors": ["src/syntax/expression.rs: Expression::parse, parse_partial_expressions, combine_partial_expressions, group_type_parameters, Declaration::parse_list, TypeParamExpr::parse_list, parse_value_block", "src/syntax/token.rs: binary_precedence, is_unary, is_postfix"]}
{"id": "C54", "title": "Trees that respect the precedences read back, and the generator makes such trees", "statement": "An expression tree of words, operators, calls, type arguments, quantifiers and conditionals whose operators bind as their precedences say parses back from its own tokens, hence is the only such tree with these tokens; the trees built by generate_binary and generate_unary from such trees are such trees again.", "quantifier": "every tree, every operator, every terminator that cannot stand inside an expression", "why_tests_cant": "Infinitely many trees", "anchors": ["src/syntax/expression.rs: generate_binary, generate_unary, top_level_precedence, combine_partial_expressions, check_partial_expressions", "src/syntax/token.rs: binary_precedence, unary_precedence, is_right_associative", "src/code_generator.rs: value_to_binary_expr"]}
{"id": "C55", "title": "Printed expressions scan and parse back", "statement": "The one-line text of an expression that was parsed from some text scans to exactly the tokens of the expression and a newline, no two neighbouring tokens fusing and none splitting, and parses to the same expression. The same holds for expressions built without a source text, if their operators bind as the precedences say and their words and numbers are words and numbers; two such expressions with the same text are equal.", "quantifier": "every source text, every parsed expression, every built tree, every notion of alphanumeric characters that contains a-z and no special character", "why_tests_cant": "Infinitely many texts and trees; the tests print about a hundred", "anchors": ["src/syntax/expression.rs: Display for Expression, pretty_ref", "src/syntax/token.rs: Token::scan, left_space, right_space"]}
{"id": "C56", "title": "Clausifying a formula keeps its meaning", "statement": "Let t be a Boolean term over type variables. If lowering it to clauses succeeds, then in every interpretation in which t is well typed and all types are inhabited, t holds for all values of its type variables if and only if every resulting clause holds, and the clauses are well typed. Leading universal quantifiers become free variables, equations of functions become equations at fresh arguments, inequations of functions stay inequations of lambdas, and Boolean equations become signed literals. Equations with a match have their own property (C57).", "quantifier": "every term, every kernel context, every interpretation, every number of type variables", "why_tests_cant": "The tests compare the printed clauses of a few dozen formulas; the claim is about the truth of the clauses in all interpretations", "anchors": ["src/kernel/clausifier.rs: lower_normalized_term_to_clauses, shallow_term_to_disjunctive_literals, try_term_to_single_literal, term_to_extended_term", "src/kernel/extended_term.rs: apply"]}
{"id": "C57", "title": "Clausifying an equation with a match keeps its meaning", "statement": "Let the registered constructors of a match eliminator be those of its data type, in the order of its cases. Let t be a Boolean term in which only constants and variables are applied, no match is on the value of a match, and no condition of an if-then-else contains a match or compares functions. Then in every interpretation in which matches compute, in which t is well typed and all types are inhabited, t holds for all values of its type variables if and only if all clauses that t is lowered to hold. This covers Boolean and function results, matches in the values of cases and either side of the equation. Without the conditions on matches and on if-then-else, this is false of the code.", "quantifier": "every term, every kernel context with match eliminators, every interpretation, every number of type variables", "why_tests_cant": "The tests check a few printed clauses of match equations; the claim is about the truth of the clauses in all interpretations, and the failures are with terms no test has", "anchors": ["src/kernel/clausifier.rs: shallow_term_to_clauses, term_to_clause_set, term_eq_to_clause_set, apply_term_to_clause_set, instantiate_match_case, split_match_eliminator_application", "src/kernel/clausifier.rs: clauses_and, clauses_or, negate_clauses, clauses_to_literal, clauses_match_negated, clause_set_if"]}
{"id": "C58", "title": "Accepted inductive types exist", "statement": "Let an inductive declaration pass the checks (base case, strict positivity with the table of variances). If the declared type occurs in its constructors only at its own parameters and not in the arguments of families, and every datatype that is applied to it is given by shapes and places at the positions that the table calls positive, then for every interpretation of the other datatypes there is one that agrees with it on them and gives the new type a meaning, for all types its parameters stand for, such that all facts added with the declaration hold: the constructors are disjoint, injective and exhaustive, and the induction principle holds. Without the conditions on families and on the table this is false of the code: an imported structure with a negative parameter, a structure with a doubly negative parameter, and an argument of a family each give an accepted project whose facts no interpretation satisfies. An accepted project whose inductive types are not within the arguments of other datatypes in their own declaration has an interpretation of all its types in which the facts of all its declarations hold.", "quantifier": "every declaration, every table of variances, every interpretation of the other datatypes, every number of parameters and constructors", "why_tests_cant": "The tests try a few declarations that should be refused in a single module; existence of models for all accepted declarations needs a proof, and the inconsistent ones are not among the tests", "anchors": ["src/elaborator/environment/add_statement/datatypes.rs: add_inductive_statement, check_strict_positivity, contains_inductive_type, add_structure_statement", "src/elaborator/acorn_type.rs: compute_variance_with_lookup, Variance::merge", "src/elaborator/binding_map.rs: get_datatype_variances, import_module, DatatypeDefinition::import"]}
{"id": "C59", "title": "The recorded variances are right", "statement": "Read types as relations: relations between two interpretations of the type parameters give a relation between the two interpretations of a type, with functions related if they take related arguments to related results and objects of datatypes related if they are made in the same way from related parts. (1) If the recorded variances of the datatypes of a type are right, then so are the variances computed for the type: larger relations for covariant parameters, smaller ones for contravariant parameters, equivalent ones for parameters of both signs and any ones for parameters without occurrence give a larger relation for the type. (2) In an accepted module without imports, whose inductive types use themselves only at their own parameters, the variances recorded for all structures and inductive types are right. (3) For an inductive type that uses itself with its parameters exchanged they are wrong, and a declaration that relies on them is accepted although no interpretation satisfies its facts.", "quantifier": "for all interpretations, all relations, all types and all lists of declarations", "why_tests_cant": "A wrong variance only shows when another declaration relies on it, and then as an inconsistency that a test sees only if the prover happens to use it.", "anchors": ["src/elaborator/acorn_type.rs:8-35", "src/elaborator/acorn_type.rs:2217-2319", "src/elaborator/environment/add_statement/datatypes.rs:86-152", "src/elaborator/environment/add_statement/datatypes.rs:656-700"]}
{"id": "C60", "title": "Matching of types and inference of type arguments", "statement": "(1) If a generic type is matched with a type, the mapping is extended, maps every parameter of the generic type, and replacing the parameters turns the generic type into the other one; what a parameter is mapped to belongs to its typeclass. (2) If there are types for the parameters that do this, the match succeeds with them, unless a type contains the parameter it is given for. (3) If the type arguments of a function are inferred, the application is well typed: the arguments, which are not checked again, have the types that the function takes, the result has the expected type, the type arguments belong to the typeclasses and contain no type variables, and computing the type does not panic. (4) If there are type arguments for which the application is well typed, and no more arguments than the generic type shows, inference does not fail: it finds them or waits for more arguments, and it finds them if every parameter occurs in the types that are looked at.", "quantifier": "for all types, mappings, arguments, expected types and registries of instances", "why_tests_cant": "An ill-typed application that inference builds is not checked again before it reaches the prover; the cases differ by where parameters occur and by how functions are curried, and there are infinitely many.", "anchors": ["src/elaborator/type_unifier.rs:107-298", "src/elaborator/type_unifier.rs:359-393", "src/elaborator/type_unifier.rs:526-665", "src/elaborator/acorn_type.rs:404-463", "src/elaborator/acorn_type.rs:1584-1666", "src/elaborator/unresolved_constant.rs:36-120"]}
{"id": "C61", "title": "The search for typeclass instances, and inheritance", "statement": "After any accepted list of declarations of typeclasses and instances: (1) the search for an instance succeeds for a datatype applied to types without type variables exactly if it follows from the declarations that the type belongs to the typeclass, where an instance with parameters can be used for all types that belong to the typeclasses of the parameters; (2) a type that belongs to a typeclass belongs to every typeclass that this one extends, directly or not, although this is only checked for the declared instance with arbitrary types for its parameters.", "quantifier": "for all lists of declarations, all types and all typeclasses", "why_tests_cant": "Instances with parameters have infinitely many special cases, and a missing inherited instance only shows when a theorem of the extended typeclass is applied.", "anchors": ["src/elaborator/binding_map.rs:1070-1130", "src/elaborator/binding_map.rs:1199-1249", "src/elaborator/binding_map.rs:3413-3429", "src/elaborator/environment/add_statement/typeclasses.rs:225-361", "src/elaborator/environment/add_statement/typeclasses.rs:624-656"]}
{"id": "C62", "title": "The inferences and simplifications of the search", "statement": "For clauses without type variables: (1) each clause that the search derives with resolution, rewriting, equality resolution, equality factoring, injectivity, extensionality, boolean reduction (without named witnesses), simplification of waiting clauses or simplification before activation, in any number of steps and any order, holds in every model of the clauses the search started from; so the empty clause is only derived from clauses without a model. (2) Rewriting and both simplifications lose nothing: given the clause that was used, the old clause and the new one are equivalent, and a clause that is discarded as known follows from the clauses that were used.", "quantifier": "for all clauses, orders of steps, interpretations and all answers of the oracles for inhabited types", "why_tests_cant": "The clauses, substitutions and orders of steps are unbounded; a wrong step only shows if a false theorem happens to be proved, and a lost clause only as a theorem that is not found.", "anchors": ["src/prover/active_set.rs:574-715", "src/prover/active_set.rs:842-1030", "src/prover/active_set.rs:1066-1320", "src/prover/active_set.rs:1334-1640", "src/prover/passive_set.rs:106-241", "src/prover/passive_set.rs:551-735", "src/prover/proof_step.rs:1029-1077", "src/kernel/kernel_context.rs:40-151"]}
{"id": "C63", "title": "Named witnesses of existential quantifiers", "statement": "For clauses without type variables: if the search or a certificate opens a clause that asserts an existential quantifier with a new constant, applied to the variables of the clause, then every interpretation in which the clause holds can be changed at that constant so that the constant has its declared type and the opened clause holds, while every clause without the constant keeps its meaning and its types. So, for every search that derives clauses as in C62 and names witnesses in between: every derived clause without witnesses holds in every model of the given clauses, and the empty clause is only derived from clauses without a model.", "quantifier": "for all clauses, constants, orders of steps and interpretations", "why_tests_cant": "The clauses and orders of steps are unbounded, and that naming a witness proves nothing new is a statement about all interpretations of the declarations.", "anchors": ["src/prover/synthetic.rs:159-276", "src/kernel/clause.rs:1138-1246", "src/prover/active_set.rs:1187-1228", "src/prover/active_set.rs:304-324"]}
{"id": "C64", "title": "Witness declarations of certificates", "statement": "For declarations without type parameters: if the constants of the `let ... satisfy` lines of a certificate are new, then every interpretation has values for them for which every declared clause holds whose existence holds, while every clause without the constants keeps its meaning and its types. So an accepted trace of claims and of such declarations refutes the facts. A line for which the parser finds no constant in the registry of synthetic witnesses is such a declaration. (Refuted for the other lines: a line that reuses a constant of the registry may assert a false clause.)", "quantifier": "for all declarations, traces, orders of iteration and interpretations", "why_tests_cant": "The declarations and traces are unbounded, and that a declaration proves nothing new is a statement about all interpretations.", "anchors": ["src/certificate.rs:1846-2175", "src/kernel/certificate_step.rs:312-545", "src/prover/synthetic.rs:102-157", "src/prover/synthetic.rs:265-270", "src/elaborator/lowering.rs:500-535"]}
{"id": "C65", "title": "What blocks export holds outside of them", "statement": "For values and types without type parameters and families: the fact that a block exports says exactly that for all values of the block's arguments there are values of the constants known only in the block for which the block's last claim holds. So the fact of a forall statement holds if its block shows its claim; all facts of an if statement hold, also the claim alone when both branches have the same one; the disjunction of a match statement holds, because an accepted match statement covers all constructors; and a theorem holds if its block shows the bound goal from the bound premise for arguments with new names.", "quantifier": "for all values, blocks and interpretations", "why_tests_cant": "Claims, binders and constants are unbounded, and the statement is about all values of the arguments in all interpretations; a wrong stack level only shows with the right nesting of binders.", "anchors": ["src/elaborator/block.rs:240-640", "src/elaborator/environment/add_statement/blocks.rs:5-140", "src/elaborator/environment/mod.rs:445-505", "src/elaborator/environment/add_statement/definitions.rs:1166-1250", "src/elaborator/binding_map.rs:2898-2952", "src/elaborator/acorn_value.rs:1328-1640", "src/elaborator/acorn_value.rs:1912-2145"]}
{"id": "C66", "title": "Goals are proved from earlier facts in scope, and what a module exports follows", "statement": "For every list of nodes: the builder verifies every goal of the lowered module exactly once and with exactly the facts that visible_fact_ids_for lists for it; all of these come before the fact of the goal's own claim; and if the nodes are as elaboration makes them and every goal follows from the facts it was verified with, then all facts of the top level hold in the worlds of the module, in particular all facts that other modules import.", "quantifier": "for all nested nodes, facts, goals and interpretations", "why_tests_cant": "Blocks nest to any depth and the statement is about all interpretations of facts and goals; a fact that leaks out of a block only shows as a wrong proof somewhere else.", "anchors": ["src/elaborator/environment/mod.rs:895-1052", "src/elaborator/lowered_module.rs:155-325", "src/builder.rs:2760-2850"]}
{"id": "C67", "title": "The simplifier only removes claims that nothing needs, writes only sources that verify, and ends", "statement": "For every source and every behaviour of loading, searching and verifying: at any time of a run the source comes from the first one by the reported removals; each removal takes out exactly the lines of one anonymous claim inside of a block that is not the last claim of any block, after every goal that may use its fact was proved without it, and gives a source that loads and verifies; all other lines stay as they are. The file is always the original or a verified source, and a dry run never changes it but reports what a run does. No candidate is skipped unless a goal failed, and the run ends after at most as many candidates as the file has lines. The fact of a removed claim is not exported from the module.", "quantifier": "for all sources, loaders, provers, verifiers and points of the run", "why_tests_cant": "The loop depends on searches with time limits and on nested blocks of any depth; a wrong cursor or a wrong test of last claims shows only with particular layouts, and a wrong write damages the file of the user.", "anchors": ["src/simplifier.rs:72-167", "src/simplifier.rs:295-488", "src/elaborator/lowered_module.rs:236-325"]}
{"id": "C68", "title": "A module is recorded as verified only if every one of its goals was verified", "statement": "For every lowered module, every store of certificates and every behaviour of checking and searching: if the build cache gets a record with the content hash of the module, every goal of it was verified from exactly its visible facts, by a certificate that checks or by a search, and the used certificates are those of the goals in order; a run that ends with a good status has verified every wanted goal; in check mode every goal has a certificate that checks. The same for every record that is saved after any sequence of batches of modules.", "quantifier": "for all modules, stores, settings, outcomes of checks and searches, and batches", "why_tests_cant": "The record makes later builds skip the module, so a goal that was left out once stays unverified; which goals are left out depends on the outcomes of searches in other modules and on how modules are grouped.", "anchors": ["src/builder.rs:1365-1401", "src/builder.rs:2257-2553", "src/builder.rs:2692-2976", "src/verifier.rs:644-686", "src/verifier.rs:796-804"]}
{"id": "C69", "title": "The certificates that a build leaves are enough to verify or check the module again without a search", "statement": "For every module that a build recorded with its hash, and every later run that looks at certificates: with the certificates that the build left, trimmed or with the unused ones behind, whatever the searches would do, every goal gets back exactly its own certificate, also if several goals have the same name; no certificate fails, nothing is searched for, the module is good and the others stay unused. If trimming a trimmed certificate changes nothing, a good build leaves the same certificates again.", "quantifier": "for all modules, stores, settings, statuses at the end of the build, and outcomes of checks and searches", "why_tests_cant": "In check mode the first certificate that fails is an error, so it depends on the order in which certificates were kept and removed by all goals of the same name; tests have few such goals.", "anchors": ["src/builder.rs:2303-2372", "src/builder.rs:2934-2975", "src/builder.rs:3527-3538", "src/certificate.rs:2296-2345"]}
{"id": "C70", "title": "Selecting lines verifies exactly the selected goals and the goals before them", "statement": "For every module and every selection of a line, of a goal on a line by its number, or of a range: exactly the goals that begin before the line or on it (up to the number) or not behind the range are verified; a number is accepted only if there is such a goal, and then that goal is verified and no later one on the line. A good run has verified the selected goal and every goal before it in the module, so that everything that the goal uses is verified.", "quantifier": "for all modules, lines of goals, selections, and outcomes of checks and searches", "why_tests_cant": "The filter has a counter that lives across goals and compares lines of goals that need not be in the order of verification; tests have short modules in which they are.", "anchors": ["src/builder.rs:119-137", "src/builder.rs:2163-2252", "src/builder.rs:2635-2662", "src/elaborator/block.rs:505-520"]}
{"id": "C71", "title": "An evaluation that skips claims searches with exactly the visible facts but those of the skipped claims", "statement": "For every lowered module, every set of anonymous claims and every maximum of the skip modes: all goals are evaluated in order; without a skip a goal is searched for with its visible facts; with a skip of k it is searched for if and only if k is at most the maximum and the k items directly before it in its own list are anonymous claims, and then with its visible facts but the facts of these k claims.", "quantifier": "for all modules, nestings of blocks, maxima and skips", "why_tests_cant": "The checkpoints are a bounded queue that facts, blocks and theorems clear; a wrong bound or a missing barrier changes only what is measured, for particular orders of items, and no result shows it.", "anchors": ["src/builder.rs:138-172", "src/builder.rs:2587-2690", "src/builder.rs:2760-2850"]}
{"id": "C72", "title": "The command line selects exactly the lines that it names", "statement": "For every target and every lines given besides: MODULE:LINE and MODULE:START-END with 32-bit numerals select the line or the range in the module, for every name of the module; they are refused together with another line, and a range is refused if it is reversed. Conversely, whatever is selected was written so, or the target is taken whole with the only line given besides. Every other target is taken whole. Every line that is accepted is one that the builder can select.", "quantifier": "for all strings and numbers", "why_tests_cant": "Targets are arbitrary strings, with colons and dashes of their own, and the numbers have bounds; tests name a few.", "anchors": ["src/bin/acorn.rs:52-120", "src/builder.rs:2163-2209", "src/verifier.rs:741-763"]}
