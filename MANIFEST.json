{
 "claims": [
  {
   "property": "C01",
   "status": "partial",
   "theorems": [
    "monomorphic_witness_traces_sound",
    "monomorphic_claim_traces_sound",
    "monomorphic_claims_hold",
    "monomorphic_trace_sound_partial",
    "trace_acceptance_sound_partial",
    "claims_keep_meaning",
    "specialized_claims_hold_partial",
    "certificate_acceptance_refuted"
   ],
   "note": "Refuted: justifying the specialized clause of a claim makes the generic one known; sound where generic clauses follow, for sets of well-typed clauses closed under the rules"
  },
  {
   "property": "C02",
   "status": "partial",
   "theorems": [
    "monomorphic_checking_sound",
    "trace_checking_sound_partial",
    "deep_checking_sound_partial",
    "checker_normalization_keeps_validity",
    "reduction_sets_equivalent",
    "insertion_sound_refuted",
    "inhabited_marking_refuted",
    "deep_insertion_refuted",
    "contradiction_of_two_refuted"
   ],
   "note": "Shallow insertion and checking sound for well-typed clauses over types with elements; deep insertion for sets of true clauses closed under the rules; refuted when variable types may be empty (F2, F5, F9)"
  },
  {
   "property": "C03",
   "status": "proved",
   "theorems": [
    "graph_groups_sound",
    "evaluate_literal_sound",
    "graph_check_clause_sound",
    "graph_contradiction_sound"
   ],
   "note": "Every history of calls, every hash iteration order, every interpretation in which the assertions hold and the terms are well typed"
  },
  {
   "property": "C04",
   "status": "proved",
   "theorems": [
    "graph_congruence",
    "graph_records_units",
    "graph_equations_complete",
    "graph_finds_contradictions",
    "evaluate_literal_complete",
    "graph_total"
   ],
   "note": "Every history of calls and hash order: closed under congruence, complete for equational logic from unit equations, every operation returns and never panics"
  },
  {
   "property": "C05",
   "status": "partial",
   "theorems": [
    "normalization_reflects_validity",
    "normalization_keeps_models",
    "normalization_keeps_models_partial",
    "normalization_keeps_models_refuted",
    "tautologies_hold",
    "tautology_of_unsorted_clause_refuted",
    "normalization_total"
   ],
   "note": "Normal forms imply the original in every interpretation; same models if no variable is dropped or all types are inhabited; refuted for a dropped variable of an empty type; tautology test right on normalized clauses, refuted on unsorted ones"
  },
  {
   "property": "C06",
   "status": "partial",
   "theorems": [
    "beta_reduction_keeps_value",
    "normalization_keeps_value_partial",
    "normalization_keeps_value_refuted",
    "normalization_idempotent",
    "clause_term_keeps_value",
    "negative_clause_term_is_negation",
    "signed_clause_term_keeps_meaning"
   ],
   "note": "Beta, double negation, equality order and clause form keep the value in every interpretation; eta only for lambdas over inhabited proper types (refuted for a lambda over a typeclass); idempotence unconditional"
  },
  {
   "property": "C07",
   "status": "partial",
   "theorems": [
    "monomorphic_resolution_sound",
    "monomorphic_factoring_sound",
    "equality_resolution_sound_partial",
    "equality_factoring_sound_partial",
    "equality_resolution_sound_refuted"
   ],
   "note": "Every result of both inferences, provided the returned map is well typed in the model and there are no kinds; refuted with kinds below binders"
  },
  {
   "property": "C08",
   "status": "partial",
   "theorems": [
    "monomorphic_injectivity_sound",
    "injectivity_sound",
    "injectivity_total",
    "normalized_injectivity_sound_partial",
    "normalized_injectivity_sound_refuted",
    "injectivity_sound_refuted"
   ],
   "note": "Sound without typing for literals with atomic heads, and does not panic; refuted on applied lambdas and, after normalization, for a dropped variable of an empty type"
  },
  {
   "property": "C09",
   "status": "partial",
   "theorems": [
    "monomorphic_extensionality_typed",
    "extensionality_sound_partial",
    "monomorphic_extensionality_sound",
    "extensionality_sound_refuted"
   ],
   "note": "Sound if no peeled variable occurs in the type of a remaining one (so for all monomorphic clauses); refuted otherwise, the code does not check it"
  },
  {
   "property": "C10",
   "status": "partial",
   "theorems": [
    "boolean_reduction_sound",
    "normalized_boolean_reduction_sound",
    "normalized_boolean_reduction_sound_partial",
    "found_reductions_are_reproduced",
    "normalized_boolean_reduction_refuted"
   ],
   "note": "All 25 kinds: the clause before normalization follows from the premise in every interpretation; after normalization if no variable is dropped or the types are inhabited, refuted for forall over an empty type; the search's reductions are those the checker recomputes"
  },
  {
   "property": "C11",
   "status": "proved",
   "theorems": [
    "literal_id_symmetric",
    "clause_id_equivalent",
    "clause_id_canonical",
    "clause_id_exact"
   ],
   "note": "ClauseId::new under every assignment of values to groups; equal for lists with the same elements; exact conditions for True and False"
  },
  {
   "property": "C12",
   "status": "proved",
   "theorems": [
    "clause_set_exact",
    "clause_set_remove_reports"
   ],
   "note": "All operation sequences, all hash iteration orders; validate never panics and no index entry is empty"
  },
  {
   "property": "C13",
   "status": "partial",
   "theorems": [
    "instantiation_is_simultaneous",
    "escaping_replacement_is_captured",
    "specialized_clause_valid_partial",
    "typed_specialized_clause_valid_partial",
    "output_context_types",
    "partial_specialization_refuted",
    "replace_variables_simultaneous_partial",
    "replace_variables_simultaneous_refuted",
    "compose_is_composition",
    "from_var_ids_is_renumbering"
   ],
   "note": "Simultaneous and capture-free for closed replacements; clauses: sound when unmapped variables have no mapped one in their types, refuted for partial maps; replace_variables refuted as simultaneous"
  },
  {
   "property": "C14",
   "status": "proved",
   "theorems": [
    "match_terms_witness",
    "match_terms_value",
    "match_untyped_witness",
    "match_untyped_eq_witness",
    "match_untyped_complete",
    "clause_match_witness",
    "clause_match_sound_partial",
    "clause_match_sound_refuted"
   ],
   "note": "The witness property holds for all terms, maps, literals and clauses; beyond the claim: a matched clause follows if the map is well typed, refuted otherwise"
  },
  {
   "property": "C15",
   "status": "partial",
   "theorems": [
    "unify_unifies_partial",
    "unify_keeps_partial",
    "unify_unifies_refuted"
   ],
   "note": "Every reachable state, pair of terms and fuel; needs the ghost flag that no variable was mapped while its own type was being unified, refuted without it"
  },
  {
   "property": "C16",
   "status": "proved",
   "theorems": [
    "open_bound_is_substitution",
    "shift_bound_is_weakening",
    "open_then_abstract",
    "abstract_then_open",
    "abstract_is_environment_lookup",
    "type_application_is_opening"
   ],
   "note": "De Bruijn operations of kernel/term.rs against the denotational semantics of Semantics.v"
  },
  {
   "property": "C17",
   "status": "partial",
   "theorems": [
    "flat_roundtrip_refuted",
    "flat_roundtrip_exact",
    "flat_apply_total",
    "flat_equality_is_tree_equality",
    "validator_exact",
    "subterm_end_exact"
   ],
   "note": "Round trip holds exactly when no argument offset exceeds 65535; refuted beyond that (u16 truncation)"
  },
  {
   "property": "C18",
   "status": "partial",
   "theorems": [
    "extended_order_identifies_only_identical_refuted",
    "extended_order_antisymmetric",
    "extended_order_identifies_only_identical_partial",
    "extended_order_transitive_partial",
    "stable_cmp_ignores_names"
   ],
   "note": "Total order on binder-free terms; refuted with binders, which tie"
  },
  {
   "property": "C19",
   "status": "partial",
   "theorems": [
    "strict_order_stable_refuted",
    "strict_order_counts_wrap_refuted",
    "strict_order_stable_partial",
    "strict_order_irreflexive"
   ],
   "note": "Stable under substitution when the u8 counters and u32 weights do not wrap; refuted when they do"
  },
  {
   "property": "C20",
   "status": "partial",
   "theorems": [
    "renumbering_is_renaming",
    "compaction_ignores_names",
    "normal_form_depends_on_names_refuted"
   ],
   "note": "Renumbering is an injective, dense, dependency-ordered renaming, total on acyclic contexts; compaction gives equal results on renamed inputs; full normalization does not (refuted)"
  },
  {
   "property": "C21",
   "status": "partial",
   "theorems": [
    "found_inhabitant_is_element_partial",
    "provably_inhabited_sound_partial",
    "inhabited_by_other_instance_refuted",
    "constructor_witness_refuted",
    "class_witness_refuted",
    "base_instance_refuted",
    "erased_class_variable_refuted"
   ],
   "note": "Sound for regular symbols and for types of variables that are not kinds; in general false, five counter-examples. Missing: termination of the search"
  },
  {
   "property": "C22",
   "status": "proved",
   "theorems": [
    "filter_parse_exact",
    "filter_print_parse",
    "filter_contains_exact",
    "filters_cover_every_goal",
    "single_filters_partition_goals"
   ],
   "note": "All strings (lists of code points); the hash is an arbitrary function."
  },
  {
   "property": "C23",
   "status": "proved",
   "theorems": [
    "support_order_terminates",
    "support_order_none_iff_already_ordered",
    "support_order_is_correct"
   ],
   "note": "All clause lists over any literal body type with decidable equality. The dependency relation only goes from higher to lower indices, so it is never cyclic; the exact 'nothing returned' condition is proved."
  },
  {
   "property": "C24",
   "status": "partial",
   "theorems": [
    "lookup_returns_unconsumed",
    "lookup_finds_goal",
    "leftovers_are_unconsumed_partial",
    "leftovers_in_order_refuted"
   ],
   "note": "Every sequence of removals; leftovers keep their order within a goal, refuted across goals"
  },
  {
   "property": "C25",
   "status": "partial",
   "theorems": [
    "certificates_old_new_or_cut_partial",
    "manifests_old_new_or_gone",
    "new_manifest_has_certificates",
    "save_touches_nothing_else",
    "certificate_file_reloads",
    "reload_old_or_new_refuted",
    "power_loss_certificates_refuted"
   ],
   "note": "Every stop of every save; false for certificates: the file is emptied before it is written"
  },
  {
   "property": "C26",
   "status": "proved",
   "theorems": [
    "manifest_is_old_or_new",
    "manifest_reloads",
    "manifest_survives_power_loss"
   ],
   "note": "Every stop, also with power loss; one process"
  },
  {
   "property": "C27",
   "status": "proved",
   "theorems": [
    "merging_keeps_new",
    "merging_is_idempotent",
    "updates_last_wins",
    "reported_iff_dependencies_change"
   ],
   "note": "Every pair of caches"
  },
  {
   "property": "C28",
   "status": "partial",
   "theorems": [
    "printed_name_parses",
    "printed_name_parses_refuted",
    "source_determines_module_partial",
    "source_determines_module_refuted",
    "module_determines_source",
    "certificate_files_are_distinct",
    "certificate_file_leads_back",
    "certificate_file_leads_back_refuted"
   ],
   "note": "Certificate files are distinct and names parse back; p.interface shares the file of p; certificates below a directory certs are never loaded"
  },
  {
   "property": "C29",
   "status": "partial",
   "theorems": [
    "lookup_finds_token",
    "lookup_finds_token_refuted"
   ],
   "note": "Every insert sequence of disjoint nonempty tokens and every position; false with empty tokens"
  },
  {
   "property": "C30",
   "status": "partial",
   "theorems": [
    "server_follows_editor_partial",
    "columns_utf16_refuted",
    "lone_cr_refuted"
   ],
   "note": "Every session with CRLF or LF line ends and columns over basic-plane text; false outside"
  },
  {
   "property": "C31",
   "status": "proved",
   "theorems": [
    "saved_lines",
    "env_line_panics",
    "version_of_refused_edit"
   ],
   "note": "Every edit sequence and line of the document; a query below the last line panics"
  },
  {
   "property": "C32",
   "status": "proved",
   "theorems": [
    "levels_are_positions",
    "shadowing_refuted"
   ],
   "note": "Every scoped use of fresh names with fewer than 65536 variables"
  },
  {
   "property": "C33",
   "status": "partial",
   "theorems": [
    "accepted_calls_decrease",
    "accepted_definition_unique",
    "accepted_definition_exists",
    "accepted_definition_terminates",
    "family_definition_refuted",
    "family_definition_panics",
    "family_value_refuted"
   ],
   "note": "Every body and input outside families; false for attributes of families with value parameters"
  },
  {
   "property": "C34",
   "status": "partial",
   "theorems": [
    "unifying_terms_are_found",
    "specializations_are_found",
    "types_miss_class_variables_refuted",
    "applied_binder_refuted"
   ],
   "note": "Every insertion sequence and query, except types against type class variables and applied binders"
  },
  {
   "property": "C35",
   "status": "partial",
   "theorems": [
    "term_keys_faithful",
    "pair_keys_faithful",
    "clause_keys_faithful",
    "term_key_reads_back",
    "clause_key_reads_back",
    "edge_reads_back",
    "clause_keys_forget_types_refuted",
    "empty_clause_key_is_prefix_refuted",
    "truth_edges_collide_refuted"
   ],
   "note": "Proved for terms, pairs and the literals of non-empty clauses; variable types and the empty clause are exceptions"
  },
  {
   "property": "C36",
   "status": "partial",
   "theorems": [
    "found_literals_are_generalizations",
    "inserted_literals_are_found_partial",
    "exchanged_literals_are_found_partial",
    "same_terms_at_two_types_refuted",
    "type_variable_first_refuted",
    "long_literals_are_lost_refuted",
    "empty_clause_lookup_panics_refuted"
   ],
   "note": "Soundness for every insertion sequence; completeness under four conditions, each shown to be needed"
  },
  {
   "property": "C37",
   "status": "partial",
   "theorems": [
    "passive_never_panics",
    "popped_at_most_once",
    "pushed_steps_wait",
    "waiting_until_popped",
    "popped_is_maximal_partial",
    "shallow_pop_is_maximal",
    "everything_is_popped",
    "replacements_come_from_waiting",
    "popped_is_maximal_refuted"
   ],
   "note": "Every history of operations, every scoring; maximality refuted for depth-first turns of the interleaving policies"
  },
  {
   "property": "C38",
   "status": "proved",
   "theorems": [
    "score_order_total",
    "float_order_is_numeric",
    "contradictions_outrank",
    "shallow_status_outranks",
    "batch_scores_all",
    "new_and_batch_agree_refuted"
   ],
   "note": "Every float including NaN, every policy and model; both ways to compute a score"
  },
  {
   "property": "C39",
   "status": "proved",
   "theorems": [
    "pruning_keeps_support",
    "pruning_panics_iff",
    "pruning_total",
    "pruning_once_refuted"
   ],
   "note": "Every trace; exact panic condition"
  },
  {
   "property": "C40",
   "status": "proved",
   "theorems": [
    "view_is_consistent_snapshot",
    "conditional_mutation_is_exact",
    "mutation_epoch_is_position"
   ],
   "note": "All interleavings of any number of readers, mutators and conditional mutators."
  },
  {
   "property": "C41",
   "status": "partial",
   "theorems": [
    "mutation_cancels_outstanding_builds_refuted",
    "mutation_cancels_outstanding_builds_partial"
   ],
   "note": "The full statement is refuted (overlapping mutators); the partial theorem covers executions without overlapping mutators."
  },
  {
   "property": "C42",
   "status": "partial",
   "theorems": [
    "refused_mutation_has_no_effect_refuted",
    "refused_mutation_has_no_effect_partial"
   ],
   "note": "The full statement is refuted (a refused conditional mutation can leave the current token cancelled); the partial theorem covers the project, log and epoch."
  },
  {
   "property": "C43",
   "status": "partial",
   "theorems": [
    "scanning_covers_the_input",
    "texts_spell_the_line",
    "tokens_are_ordered",
    "token_texts_and_positions",
    "long_lines_wrap_refuted",
    "empty_text_has_no_newline_refuted"
   ],
   "note": "Every text below 4 GiB; longer lines wrap"
  },
  {
   "property": "C44",
   "status": "partial",
   "theorems": [
    "found_clauses_are_generalizations",
    "simple_lookups_do_not_panic",
    "lambda_lookup_panics_refuted",
    "empty_query_panics_refuted",
    "types_are_matched_separately_refuted"
   ],
   "note": "Soundness for every insertion sequence and concrete query; no panic for typed non-empty queries without binders; binders and the empty clause do panic, and type variables are not matched consistently"
  },
  {
   "property": "C45",
   "status": "partial",
   "theorems": [
    "merge_is_sequential_partial",
    "sequential_totals",
    "progress_total_refuted",
    "error_schedule_refuted",
    "event_progress_refuted"
   ],
   "note": "Every schedule without errors, up to progress totals; false after errors and for progress"
  },
  {
   "property": "C46",
   "status": "partial",
   "theorems": [
    "skipped_was_verified_partial",
    "skipped_was_verified_refuted"
   ],
   "note": "Every history of full builds with any edits between; false for partial builds and builds that do not write the cache"
  },
  {
   "property": "C47",
   "status": "partial",
   "theorems": [
    "graph_keeps_clauses_refuted"
   ],
   "note": "Refuted: an inserted clause is forgotten after one of its literals is refuted"
  },
  {
   "property": "C48",
   "status": "proved",
   "theorems": [
    "trimming_keeps_acceptance"
   ],
   "note": "Every trace and checker state"
  },
  {
   "property": "C49",
   "status": "partial",
   "theorems": [
    "concrete_terms_are_ordered",
    "comparison_is_stable",
    "instances_are_found_partial"
   ],
   "note": "Order and stability for all terms without applied binders; lookup of instances without type variables, with one context per form, below the stack limit"
  },
  {
   "property": "C50",
   "status": "proved",
   "theorems": [
    "printed_tokens_scan_back",
    "printed_types_scan_back",
    "tokens_are_determined"
   ],
   "note": "For token lists below 4 GiB"
  },
  {
   "property": "C51",
   "status": "partial",
   "theorems": [
    "monomorphic_resolution_sound",
    "monomorphic_factoring_sound",
    "monomorphic_injectivity_sound",
    "monomorphic_extensionality_typed",
    "monomorphic_match_sound",
    "monomorphic_fragment",
    "monomorphic_checking_sound",
    "monomorphic_claims_hold",
    "monomorphic_claim_traces_sound",
    "phantom_parameters_refuted"
   ],
   "note": "All rules and all histories, for kernel contexts where constants use their type parameters; without that injectivity leaves the typed clauses"
  },
  {
   "property": "C52",
   "status": "partial",
   "theorems": [
    "validated_claims_hold_partial",
    "validated_clauses_are_typed",
    "class_arguments_refuted",
    "kind_arguments_refuted",
    "unchecked_binders_refuted"
   ],
   "note": "Holds for value-level, well-typed maps without type class variables; refuted without these conditions"
  },
  {
   "property": "C53",
   "status": "partial",
   "theorems": [
    "expression_parsing_ends",
    "parsing_keeps_the_tokens",
    "printing_then_parsing_gives_the_same_expression",
    "function_brackets_change_refuted"
   ],
   "note": "All of the parser except local let blocks inside braces, which the model reports as not modelled; the tokens are kept except that function<T> becomes function[T] and empty parentheses after type parameters are dropped (refuted); the expression is the same after printing also in these cases."
  },
  {
   "property": "C54",
   "status": "partial",
   "theorems": [
    "precedence_trees_read_back",
    "tokens_determine_the_tree",
    "generated_binaries_read_back",
    "generated_unaries_read_back",
    "negation_on_the_right_refuted",
    "implication_on_the_left_refuted",
    "comparisons_as_arguments_refuted",
    "question_marks_refuted"
   ],
   "note": "Without match expressions, generic function literals and question marks in the trees; the generator's theorem has three exceptions, each shown to be real by a refutation: a negation on the right whose operand is looser, an implication to the left of an implication, and < followed by > at one level."
  },
  {
   "property": "C55",
   "status": "proved",
   "theorems": [
    "parsed_expressions_print_and_read_back",
    "built_expressions_print_and_read_back",
    "texts_determine_the_tree"
   ],
   "note": "One-line printing; local let blocks are not modelled (as in C53), the multi-line layout neither."
  },
  {
   "property": "C56",
   "status": "proved",
   "theorems": [
    "clausifying_keeps_models"
   ],
   "note": "Without equations one side of which is a match (C57). The interpretation is assumed to have inhabited types, as in C05."
  },
  {
   "property": "C57",
   "status": "proved",
   "theorems": [
    "clausifying_matches",
    "clausifying_nested_matches_refuted",
    "clausifying_function_conditions_refuted"
   ],
   "note": "For tidy terms, a condition that is part of the statement; the refutations show that the code is unsound for matches on matches and for conditions that compare functions."
  },
  {
   "property": "C58",
   "status": "proved",
   "theorems": [
    "accepted_inductive_types_exist",
    "accepted_plain_types_exist",
    "accepted_projects_exist",
    "imported_variance_refuted",
    "double_negation_refuted",
    "family_argument_refuted"
   ],
   "note": "The conditions are part of the statement; the refutations show inconsistent declarations that the code accepts without them. The existence theorems use functional extensionality."
  },
  {
   "property": "C59",
   "status": "proved",
   "theorems": [
    "computed_variances_right",
    "recorded_variances_right",
    "exchanged_parameters_refuted"
   ],
   "note": "The conditions (no imports, inductive types used at their own parameters) are part of the statement; the refutation shows what happens without the second one."
  },
  {
   "property": "C60",
   "status": "proved",
   "theorems": [
    "matching_right",
    "matching_respects_classes",
    "matching_finds",
    "inference_well_typed",
    "inference_finds",
    "more_arguments_refuted",
    "foreign_arbitrary_refuted",
    "own_variable_refuted"
   ],
   "note": "For types without families and constants without value parameters; the refutations show which conditions are needed."
  },
  {
   "property": "C61",
   "status": "proved",
   "theorems": [
    "instance_search_right",
    "instances_inherit",
    "search_inherits",
    "variable_name_refuted"
   ],
   "note": "For the declarations of one module; the refutation shows that the search depends on names for types with type variables."
  },
  {
   "property": "C62",
   "status": "proved",
   "theorems": [
    "search_resolution_sound",
    "search_rewriting_sound",
    "waiting_simplification_sound",
    "active_simplification_sound",
    "search_sound",
    "found_contradictions_are_real",
    "waiting_empty_types_refuted",
    "dropped_clauses_follow_refuted"
   ],
   "note": "For monomorphic clauses, so that all types have elements; the refutations show what happens otherwise. Named witnesses for positive existential literals are in C63."
  },
  {
   "property": "C63",
   "status": "proved",
   "theorems": [
    "witness_opening_conservative",
    "witnessed_search_sound",
    "witnesses_conservative",
    "witnessed_contradictions_are_real"
   ],
   "note": "For monomorphic clauses. Freshness of the constant is a condition of each step. Uses the standard library's axioms of classical logic and indefinite description."
  },
  {
   "property": "C64",
   "status": "proved",
   "theorems": [
    "witness_declarations_conservative",
    "monomorphic_witness_traces_sound",
    "new_witness_lines_declare",
    "reused_witnesses_refuted",
    "registered_clauses_refuted"
   ],
   "note": "For new constants and declarations without type parameters; the refutations show that lines which reuse constants of the registry are not conservative. Uses the standard library's axioms of classical logic and indefinite description."
  },
  {
   "property": "C65",
   "status": "proved",
   "theorems": [
    "externalized_meaning",
    "if_statement_sound",
    "match_statement_sound",
    "theorem_statement_sound"
   ],
   "note": "For values and types without type parameters and families; that the interior of the blocks is proved is a condition of the statements."
  },
  {
   "property": "C66",
   "status": "proved",
   "theorems": [
    "builder_uses_visible_facts",
    "claims_not_circular",
    "verified_exports_hold"
   ],
   "note": "For complete runs over one module; imports, kernel contexts and goal filters are left out. That goals follow from their facts and what elaboration ensures of nodes are conditions of the last theorem."
  },
  {
   "property": "C67",
   "status": "proved",
   "theorems": [
    "remove_line_range_exact",
    "simplify_terminates",
    "simplify_safe",
    "simplify_in_order",
    "dry_run_predicts",
    "removed_claims_local"
   ],
   "note": "Loading, searching and verifying are given functions; the file is written as a whole and nobody else changes it; termination needs that claims have lines of the source."
  },
  {
   "property": "C68",
   "status": "partial",
   "theorems": [
    "good_record_verified",
    "good_status_verified",
    "check_mode_checked",
    "saved_records_verified",
    "saved_records_refuted"
   ],
   "note": "Every run that does not stop at warnings or has one batch; false if a run with several batches stops at warnings. Checking and searching are given functions."
  },
  {
   "property": "C69",
   "status": "proved",
   "theorems": [
    "recorded_module_replays",
    "build_then_check"
   ],
   "note": "That trimmed and made certificates check are hypotheses on the given functions (the first is C48)."
  },
  {
   "property": "C70",
   "status": "partial",
   "theorems": [
    "line_filter_exact",
    "range_filter_exact",
    "validated_goal_selected",
    "prerequisites_verified",
    "prerequisites_refuted"
   ],
   "note": "All selections exactly; that everything before a selected goal is verified is refuted for theorems with a proof block and proved where no earlier goal begins on a later line."
  },
  {
   "property": "C71",
   "status": "proved",
   "theorems": [
    "eval_skip_exact"
   ],
   "note": "Processors are the lists of their facts; searches have no effect on later goals."
  },
  {
   "property": "C72",
   "status": "partial",
   "theorems": [
    "named_lines_selected",
    "selected_lines_named",
    "other_targets_whole",
    "line_zero_refuted"
   ],
   "note": "Both directions for all strings; that every accepted line can be selected is refuted by line 0."
  }
 ]
}
