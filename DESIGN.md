# Design

Subject: the Acorn prover at the pinned commit in /repo (Rust, read as text only).
Everything here is a hand-written Rocq (Coq 8.16.1) model of that code together with
machine-checked theorems about the model.

## How the model is organised

* `rocq/theories/*.v` — one group of files per area of the code.  A file `X.v` holds the
  model of one source file (definitions only, each with a comment naming file and lines),
  `XProofs.v` the lemmas, and `P_*.v` the property theorems (statement + `exact lemma` +
  `Print Assumptions`) plus a concrete instance that meets each theorem's hypotheses.
* Panics and `unwrap` failures are modelled by `option`/explicit error values.
  Machine integers are unbounded (`nat`/`N`) unless the property is about overflow, and
  then the wrap is explicit.
* Where the code violates a property the theorem is named `..._refuted` and exhibits a
  concrete witness; next to it stands the strongest positive theorem we have, with the side
  condition that the code forgets.

## Semantics used for the soundness properties

Terms are interpreted in Henkin-style structures (`Semantics.v`): one carrier `D`, an
application `app`, a membership relation `mem` (value in type), and higher-order
interpretations of lambda, pi, forall and exists.  Types may be empty.  A clause holds in an
interpretation if every assignment that respects the variable types makes some literal true.
A concrete structure over hereditarily finite sets, with empty and non-empty types, shows
that the laws are satisfiable (`FiniteModel.v`) and serves as counter-model.

## Plan per property

| id | what is modelled | how it is proved |
|----|------------------|------------------|
| C01 | trace checker steps (fact, claim, instance, reductions, contradiction) over clause semantics | refuted by the two-step certificate (specialised claim justifies the generic one); sound for the corrected rule |
| C02 | checker insertion and direct check | invariant: every stored clause is entailed |
| C03 | equality graph operations | invariant over all operations: groups are value-equal |
| C04 | same | closure invariant on the application table |
| C47 | same | counterexample (F11) |
| C05 | clause normalisation | semantic equivalence, over possibly empty types |
| C06 | term normalisation | evaluation preserved for semantically well-typed terms; idempotence |
| C07 | equality resolution/factoring | evaluation argument |
| C08 | injectivity | evaluation argument |
| C09 | extensionality | sound for value variables; refuted for type variables used in other variables' types |
| C10 | boolean reductions | evaluation argument |
| C11 | ClauseId::new | sort/dedup lemmas, permutation invariance |
| C12 | ClauseSet | invariant over operation sequences |
| C13 | replace/specialise | substitution lemma; sequential replacement refuted |
| C14 | match_terms | induction on terms |
| C15 | unifier | induction with fuel; swapped equalities refute syntactic identity |
| C16 | de Bruijn operations | induction |
| C17 | flat encoding | round trip under the 16-bit bound; refuted beyond |
| C18 | KBO | total on binder-free terms; refuted with binders |
| C19 | KBO | stability without wrap; refuted with u8 wrap |
| C20 | renumbering | induction |
| C21 | inhabitedness | soundness by induction on the search, tables by induction on what is recorded; refutations by models with empty types |
| C22 | goal partition | parser/printer induction |
| C23 | proof order | Kahn's algorithm invariant |
| C24 | worklist | invariant over operations |
| C25 | save as a sequence of file-system effects with crash points | by position in the sequence; refuted for certificates |
| C26 | same for the manifest | proved |
| C27 | cache merge | map laws |
| C28 | names and paths | string lemmas, collision witness |
| C29 | token map | ordered-map argument |
| C30 | live document | splice refinement; refuted for non-BMP text |
| C31 | live document | invariant over edits |
| C32 | stack | invariant; refuted for duplicate names |
| C33 | termination checker | evaluation semantics with decreasing measure |
| C34 | fingerprints | case analysis over paths; typeclass trees refute |
| C35 | PDT keys | prefix-free code induction |
| C36 | literal set | refuted by same-structure literals |
| C37 | passive set | invariant over operations |
| C38 | score | order lemmas |
| C39 | trace pruning | list induction |
| C40–C42 | project manager as an interleaving system of atomic steps | invariants; races as reachable states |
| C43 | scanner | induction over characters |
| C44 | generalization set | panic witness; soundness |
| C45 | pipeline merge | permutation invariance |
| C46 | skip logic | invariant over build histories |
| C48 | trimming of traces | trace induction |
| C49 | order of the generalization set | induction over terms |
| C50 | scanner against a declarative lexicon | uniqueness of the longest token |
| C51 | simply typed clauses through every rule of the checker | typing judgement preserved by each rule |
| C52 | `ClaimPayload::validate_checker_payload` and its helpers | typing soundness of `checked_type` under substitution |
| C53 | `Expression.v`: the token-level parser of `expression.rs` with fuel, the printed tokens `flat` | `ExpressionTokens.v`: induction over the fuel on all six mutual functions, with the tokens read, the printed tokens and the second parse in one invariant; `ExpressionFuel.v`: lengths |
| C54 | the same, and `generate_binary`, `generate_unary`, `top_level_precedence` | `ExpressionRound.v`: the flat list of operators of a tree (`spine`) combines back to it, since its top operator has the largest key |
| C55 | `Display for Expression`, `pretty_ref` in flat mode, `left_space`, `right_space` | `ExpressionTidy.v`: by induction over the parser, the printed pieces of a parsed expression are its tokens, and tokens printed without a space between them cannot fuse; `P_Display.v`: such pieces scan to their tokens |
| C56 | `Clausifier.v`: all of `clausifier.rs` and `extended_term.rs`, with fuel, the local context threaded through | `PolyTyped.v`: typed terms over type variables; `ClausifierConv.v`, `ClausifierExt.v`: the extended terms rebuild to terms with the same value and type; `ClausifierLits.v`: literals with the variables they introduce; `ClausifierMain.v`: the clause, by C05 |
| C57 | `Clausifier.v` as in C56: `term_to_clause_set`, `apply_term_to_clause_set`, `term_eq_to_clause_set`, the operations on sets of clauses | `MatchSpec.v`: what the metadata and values of eliminators are, and which terms are `tidy`; `ClausifierSets.v`: sets of clauses that say something with new variables (`says`); `ClausifierTidy.v`, `ClausifierCases.v`: the value of a match by its cases; `ClausifierInd.v`: induction on the fuel; `ClausifierMatch.v`: the clauses |
| C58 | `Positivity.v`: types, variances and their table, `check_strict_positivity`, structure and inductive declarations, imports. Value arguments of families are opaque, names are numbers | `PositivitySem.v`: types denote Coq types and the facts of a declaration are statements about them; `PositivitySpec.v`: the conditions; `Containers.v`, `PositivityProofs.v`: accepted types are containers, well-founded trees give the type; `PositivityPoly.v`: one interpretation for all parameters; refutations by Cantor's argument |
| C59 | `Positivity.v`: `variance_of`, `merge`, the table of variances, structure and inductive declarations | `VarianceSem.v`: types as relations, what a right table is, how declared types are related; `VarianceProofs.v`: induction over types, structures by their fields, inductive types by the leastness of their relation | `P_Variance.v`; refuted for types that use themselves at other parameters |
| C60 | `TypeMatch.v`: types without families, `functional`, `instantiate`, `match_instance`, `satisfies_typeclass_constraint`, `try_resolve_with_inference` without value parameters; the registry of instances is an oracle | `TypeMatchSpec.v`: replacement of parameters and application as relations; `TypeMatchProofs.v`, `TypeInferProofs.v`: induction on the fuel, and the mapping only grows | `P_TypeMatch.v`; three refutations show which conditions are needed |
| C61 | `TypeMatch.v`: `is_instance_of_type`, `extends`, `add_typeclass`, instance statements without attributes and conditions | `TypeMatchSpec.v`: membership in a typeclass as an inductive relation over the declarations; `InstanceProofs.v`: an invariant of the registry and substitution of types of a class | `P_Instances.v`; refuted for types with type variables |
| C62 | `SearchRules.v`: `try_resolution`, rewriting with `canonicalize_instance_calls`, `simplify` of the active set with its index of literals, `simplify` of the passive set; the one-premise rules are those of C07-C09 | `SearchProofs.v`, `SearchRewrite.v`, `SearchSimplify.v`: the lemmas about unification and matching of monomorphic terms, for two clauses; a relation between terms that may stand for each other, for rewriting and instance aliases | `P_Search.v`: each step, and all derivations; refuted for types without elements |
| C63 | `Witness.v`: `positive_exists_reduction`, `witness_symbol_type`, `open_positive_exists` and the step of the active set | `WitnessProofs.v`: interpretations that differ in one constant; a value of the constant that chooses a witness for all values of the variables | `P_Witness.v`: one opening, and the search of C62 with openings in between |
| C64 | `WitnessDecl.v`: `let ... satisfy` lines of certificates: existence, justification, the registry of source-level witnesses, `parse_satisfy` | `WitnessDeclProofs.v`: values for a list of declared constants | `P_WitnessDecl.v`: declarations, traces with declarations, lines without an entry of the registry, refutations for the others |
| C65 | `BlockExport.v`: values with stack levels, `insert_stack`, `replace_constants`, `bind_values`, `find_unknown_scoped_constants`, `externalize_bool`; forall, if, match and theorem statements | `BlockExportProofs.v`: interpretations of values; each operation on values, the unknown constants | `P_BlockExport.v`: meaning of the exported value; the four statements |
| C66 | `LoweredModule.v`: `lower_nodes_pass`, `visible_fact_ids_for`, `verify_lowered_items` | `LoweredModuleProofs.v`: the walk against the list, growth of the module, what elaboration ensures of nodes (`scoped`) | `P_LoweredModule.v`: same facts, no circularity, exports hold |
| C67 | `Simplify.v`: `simplify_file`, `collect_candidates`, `collect_exported_claims`, `collect_affected_goals`, `can_remove_candidate`, `remove_line_range` | `SimplifyProofs.v`: lines, candidates, invariant of the loop, measure, dry runs | `P_Simplify.v`: exact removal, termination, safety, order, dry runs, removed claims are local |
| C68 | `BuildModule.v`: `verify_goal`, `verify_lowered_claim`, `verify_lowered_items`, `verify_lowered_module`, `process_module_work_batch`, loop and saving of `verifier.rs` | `BuildModuleProofs.v`: evidence for goals, good modules, statuses, batches | `P_BuildModule.v`: good records, good statuses, check mode, saved records, refutation for stops at warnings |
| C69 | `BuildReplay.v`: `trim_unused_certificates`; the rest is `BuildModule.v` | `BuildReplayProofs.v`: verifying with the certificates of the goals in order | `P_BuildReplay.v`: replay of a recorded module, build and then check |
| C70 | `LineFilter.v`: `GoalFilter`, `should_verify_for_line_filter`, `set_single_goal_with_index`, `set_goal_range`, `validate_goal_filter` | in `P_LineFilter.v` | `P_LineFilter.v`: exact selections, numbers of goals, prerequisites, refutation for theorems with proofs |
| C71 | `EvalSkip.v`: `EvalSkipTail`, its use in `verify_lowered_items`, `verify_eval_goal` | `EvalSkipProofs.v`: claims with the items before them, invariant of the checkpoints | `P_EvalSkip.v`: exact facts for every skip |
| C72 | `TargetLine.v`: `parse_target_and_line` with `u32::from_str`, `rfind` and `find` | in `P_TargetLine.v` | `P_TargetLine.v`: numerals and separators; both directions; line 0 refuted |

(The results below say what became of each plan; a property without an entry there is not done yet.)

## Trusted base

* Coq's kernel (8.16.1).  Every property theorem is followed by `Print Assumptions`; all of them
  print `Closed under the global context`, except `accepted_inductive_types_exist`, `accepted_plain_types_exist` and `accepted_projects_exist` (C58),
  which print `functional_extensionality_dep` of the standard library, and for those of `P_Witness.v` and `P_WitnessDecl.v`,
  which print `classic` and `constructive_indefinite_description` of the standard library's
  `ClassicalEpsilon` (a value of a witness is chosen for all values of its arguments).  There are no axioms of ours.
* The reading of the Rust code: the model is written by hand from the source text, function by
  function.  Each definition cites file and lines.  Nothing was executed.
* The class of interpretations (`Semantics.v`), which is what "holds" means in the soundness
  properties.  A property proved for all of them holds for the intended set-theoretic ones;
  a refutation uses one of the finite structures of `FiniteModel.v`, which are ordinary set-theoretic
  interpretations with types read as finite sets.  Laws worth knowing: equality of values is
  classical (`val_dec`), functions in a product are extensional (`pi_ext`), only types have
  elements (`mem_isty`), connectives are not types (`isty_conn`), and equality and if-then-else take
  exactly the types as first argument (`isty_eq`, `isty_ite`).  Types may be empty.
* The checker's context report also lists seven `Coq.ssr.ssrunder.Under_rel` declarations: they are
  loaded with the standard library (through `Lia`), and no theorem here depends on them.

## Not modelled

* Threads, locks and channels except for the project manager (C40-C42), and all of I/O except
  as explicit effect sequences.
* The parser of statements, the elaborator (except the declarations of C58), the prover's search strategy and its
  neural scoring model, the code generator, and the language-server protocol plumbing.
* Hash-map iteration order is a parameter or quantified away; hashing itself is not modelled.

## Results

* **C05** (`P_Clause.v`, `Clause.v`): a clause follows from its normal form always; the converse
  holds if no variable is dropped or all variable types have elements, and is refuted otherwise
  (finding F5).  `is_tautology` is right on normalized clauses and refuted on unsorted ones.  No
  panic on scoped, acyclic contexts.
* **C06** (`P_TermNorm.v`, `TermNorm.v`): values kept; eta only over inhabited proper types,
  refuted for a lambda over a typeclass.  Idempotence.
* **C08** (`P_Injectivity.v`, `Inference.v`): sound without any typing for atomic heads; refuted for
  applied lambdas, whose head "atom" is that of the domain; refuted after normalization when a
  variable of an empty type goes.
* **C09** (`P_Extensionality.v`, `Typing.v`, `Inference.v`): `find_extensionality` is modelled with
  `checked_type` and `get_type`; `TypingProofs.v` shows that computed types contain the values.
  Sound if no peeled variable occurs in the type of a remaining variable; refuted otherwise (F4).
* **C10** (`P_BooleanReduction.v`, `BoolReduction.v`): all 25 reduction kinds, for typed literals; sound before
  normalization (an opened quantifier keeps its variable in the context).  After normalization the
  condition of C05 is needed again; refuted on `forall(x: E) { false }` with `E` empty (F5).  The list found
  by the search is reproduced entry by entry by `boolean_reduction_at`.  `simplify_ite_term` has a fuel; the
  theorems hold for every fuel (running out gives no result), termination is not claimed.
* **C11**, **C12** (`P_ClauseSet.v`, `ClauseSet.v`): proved as stated.  Hash sets are lists; the iteration order
  in `remove_literal`/`remove_group` is any permutation.
* **C13** (`P_Instantiation.v`, `VariableMap.v`): `apply_to_term`/`specialize_term` are simultaneous and capture
  nothing if the replacements are closed under binders.  `specialize_clause` (both variants, with
  `canonicalize_instance_calls`; the alias table is any table whose entries are true) is sound if the replacements
  have the types `get_type` computes and no unmapped variable has a mapped one in its type; refuted otherwise (F8).
  `replace_variables` is refuted as simultaneous; equal to it when no later id occurs in an earlier value.
* **C14** (`P_Matching.v`): proved for `match_terms`, `match_terms_no_type_check`, literals and clauses, plus
  completeness of the untyped matcher.  `type_term_is_instance_of` is an oracle.  That a matched clause is
  *implied* needs the map to be well typed; `clause_matches_with_var_map` does not ensure it (F7, refuted).
* **C16** (`P_Binders.v`), **C17** (`P_FlatTerm.v`), **C18**, **C19** (`P_Kbo.v`), **C20** (`P_Renumber.v`),
  **C22** (`P_GoalPartition.v`), **C23** (`P_ProofOrder.v`), **C40-C42** (`P_Server.v`): see MANIFEST.json for
  the theorem names and the remaining gaps.
* **C15** (`P_Unifier.v`, `Unifier.v`): after a successful `unify` from any reachable state the two applications give
  terms equal up to the sides of equations and up to a typeclass standing for `Type0`; earlier results are kept.
  Partial: the ghost flag `u_clash` must be false (a variable mapped while its own type is unified; needs a global
  `c : F(c)`), refuted without it. Fuel: `None` stands for a panic or lack of fuel, the theorem is for every fuel.
* **C07** (`P_EqualityInferences.v`): every resolvent and factoring holds and is well typed in every model where the
  premise is and does. Partial: the returned map must be semantically well typed, no kinds; refuted with kinds (F10).
  Normalising the result is C05/C10.

* **C03** (`EqualityGraph.v`, `EqualityGraphProofs.v`, `P_EqualityGraph.v`) proved. The whole graph is
  modelled: terms, groups with forwarding, applications and the application map, inequalities, the clause set
  (C12's model), the pending stack, `remap_group`, clause evaluation, resolution by flipped literals,
  `evaluate_literal`, `check_clause`. Not modelled: path edges, traces, dependencies. Hash iteration orders are
  arbitrary permutations that may change at every iteration. A history is any sequence of `insert_term`,
  `insert_clause`, `set_terms_equal`, `set_terms_not_equal`, `evaluate_literal`, `check_clause` calls that
  return. For every interpretation in which the asserted ground clauses hold and the mentioned terms are well typed:
  same group implies equal values, recorded inequality implies different values, `evaluate_literal` returns the
  truth value, `check_clause` accepts only true clauses, and no contradiction is flagged. The typing
  condition is used only for the link between `a = b` and `b = a`.

* **C04** (`EqualityGraphClosure.v`, `EqualityGraphRemap.v`, `EqualityGraphSteps.v`, `EqualityGraphTotal.v`,
  `P_Congruence.v`) proved, for the same histories and iteration orders as C03. In every state reached without a
  contradiction: same group is an equivalence, applications with equal parts are equal, the swapped form of every
  equation is present and equal, asserted unit literals are recorded. `graph_equations_complete`: whatever equational
  logic derives from the asserted unit equations, through any intermediate terms, holds in the graph;
  `evaluate_literal` returns it and a contradicting disequation sets the flag. `graph_total`: every operation returns
  for some fuel and panics for none, so the `Ok` hypotheses of C03 lose nothing.
* **C47** (`P_Congruence.v`) refuted: `check_clause` forgets an asserted clause once one of its literals is decided (F11).
* **C02** (`Checker.v`, `CheckerProofs.v`, `CheckerSem.v`, `P_Checker.v`) partial. All of kernel/checker.rs that decides
  something is modelled: shallow and deep insertion, marking of inhabited types, boolean reductions and their sets,
  direct check, check through reductions, concrete simplification, the `*_for_trace` entry points.
  `trace_checking_sound_partial`: for every history of shallow insertions and checks and every interpretation of the
  inserted clauses, no contradiction is flagged and accepted clauses hold; side condition `suitable` (well typed, types
  of variables and of lambda domains have elements). `checker_normalization_keeps_validity`: the normalization of
  derived clauses, which asks for an element of each dropped variable's type, loses nothing, unconditionally.
  `reduction_sets_equivalent` (`BoolReductionConverse.v`, `CheckerSets.v`): a set of reductions through which `check`
  accepts a clause says the same as the clause, so nothing is lost by taking only half of a split.
  `deep_checking_sound_partial`: histories with inferences, for a set of clauses that hold and that the rules do not
  lead out of (missing: the rules keep every well-typed set, which C07-C10 prove up to typing). Refuted without
  elements: `insertion_sound_refuted` (F5), `inhabited_marking_refuted` and `deep_insertion_refuted` (F2),
  `contradiction_of_two_refuted` (F9). `inhab` (kernel context), `avail` (certificate options) and the dependency paths of
  the graph are oracles; `inhab` is C21.

* **C01** (`TraceChecker.v`, `CertificateStep.v`, `Fragment.v`, `TraceProofs.v`, `P_TraceChecker.v`) partial. Modelled: every
  step rule of `TraceChecker` over the checker of C02, and the construction of claims and their specialized clauses
  (kernel/certificate_step.rs). The parser is an oracle: a step carries the clauses it was parsed to. The kernel context
  is fixed, so symbols that steps declare are in it from the start.
  `certificate_acceptance_refuted` (F1): with no facts at all a two step trace is accepted.
  `trace_acceptance_sound_partial`: every accepted trace, over any history of inserted facts, refutes every interpretation
  of the facts, provided `fragment` (a set of well-typed clauses that the rules do not leave), specialized clauses are
  instances, declared witnesses have their property, and, against F1, the generic clause of a fact/claim/
  reduction step holds if the specialized one does (trivial when they are the same).
  `specialized_claims_hold_partial`: specialized clauses are instances if the map is well typed.
  `claims_keep_meaning`: the normal form of a claim has the meaning of the claim, for clause and map.

* **C24** (`Worklist.v`, `P_Worklist.v`) partial. After any removals a lookup returns exactly the certificates of the goal
  that were not removed, in order of their position; the leftovers are, up to the order across goals, the certificates
  that were not removed. `leftovers_in_order_refuted`: that order is not the original one.
* **C37** (`PassiveSet.v`, `PassiveSetProofs.v`, `P_PassiveSet.v`) partial. Modelled: all of `PassiveSet` that moves
  steps. Scores (a function of step and goal symbols), the fingerprint lookup (returns inserted entries) and what a
  simplification decides are oracles. Over every history of pushes, pops, shallow pops, simplifications and looks for a
  contradiction: no operation panics, numbers are popped at most once, waiting steps stay until popped or
  simplified away, popping empties the set and yields each waiting step once, sorted by score.
  `popped_is_maximal_refuted`: not for the two interleaving policies, whose depth-first turns are maximal in another key.
* **C38** (`Score.v`, `P_Score.v`) proved. Floats are bit patterns compared as `OrderedFloat` does. The order is total,
  contradictions come first, then the shallow status decides, for every scoring model, NaN included; other floats are
  ordered by their IEEE 754 values.
* **C39** (`TracePrune.v`, `P_TracePrune.v`) proved. Pruning keeps every step the last one depends on, with premises
  renumbered, and panics exactly on premises that are not earlier steps. One pass is not a fixed point
  (`pruning_once_refuted`).
* **C48** (`TraceChecker.v`, `P_TraceUsage.v`) proved: an accepted trace cut to the consumed steps is accepted with the
  same usage.
* **C21** (`Inhabited.v`, `InhabitedProofs.v`, `P_Inhabited.v`) partial. `find_inhabitant` and the tables it reads are
  modelled as they are filled by `record_element`. For regular symbols (`regular`: a class is noted only for its first
  parameter, providers ask of type arguments what the constructor's kind asks) every element found is one, in every
  interpretation and for every fuel, and a type (not a class) accepted by `provably_inhabited` has an element even when
  the erased variable itself has none. Five `_refuted` theorems show what is missing. That the search ends is not shown.
  `provably_inhabited_sound_partial` is the premise `inhab_sound` of the checker theorems (C02).

* **C25** (`BuildCache.v`, `P_CacheCrash.v`) partial. A save is the list of its file operations; it may stop between two
  of them or inside a write, and an error that ends the save is such a stop. At every stop each certificate file is the
  old or the new one, except at most one, which is a beginning of the new one (`certificates_old_new_or_cut_partial`);
  each manifest is the old or the new one, or removed (`manifests_old_new_or_gone`); a manifest that changed finds all
  certificate files complete (`new_manifest_has_certificates`); nothing else is touched; complete files reload. The full
  claim fails: the certificate file is emptied first, and after a stop there reloading gives no certificates while the
  old manifest still matches (`reload_old_or_new_refuted`). With power loss a new manifest can meet lost certificates,
  because only manifests are synced (`power_loss_certificates_refuted`).
* **C26** proved. At every stop, also with power loss, where files not synced since their last write may hold anything.
  Missing: two processes that save the same manifest share the name of the temporary file.
* **C27** (`P_CacheMerge.v`) proved. Merging keeps the new entries and adds the missing old ones for certificates,
  interface, implementation and dependency hashes; it is idempotent; updates win; a package is reported exactly when its
  saved dependency hashes change.
* **C28** (`P_ModuleNames.v`) partial. Parsing a printed name returns it for all parts without dots; distinct modules of a
  project never share a certificate file; the module determines its source file; the source file determines the module
  unless it is `p.interface` next to package `p`; the certificate file leads back to the module unless the path of
  the project or the name contains `certs`. The exceptions are refuted with witnesses.
* **C46** (`SkipUnchanged.v`, `P_SkipUnchanged.v`) partial. For every history of full builds that write the cache, with
  any edits, new and deleted files between them, a module that loads is skipped only when an earlier build verified a
  module with the same file and text, and the same files and texts of all direct and indirect imports. False for
  partial builds and builds that do not write (`skipped_was_verified_refuted`). Hashes stand for the texts; the search for
  dependencies is modelled with fuel and the theorem holds for every fuel that suffices.
* **C29** (`TokenMap.v`, `P_TokenMap.v`) `lookup_finds_token`: all insert sequences of pairwise disjoint nonempty tokens, all
  positions below `u32::MAX`; the entry found is the last inserted one of the covering token, none iff no token covers.
  `lookup_finds_token_refuted`: an empty token hides the token around it. That the tokens of a file are disjoint and
  nonempty is assumed here.
* **C30** (`LiveDocument.v`, `P_LiveDocument.v`) partial. The editor's text changes by the protocol's rules (`at_position`,
  UTF-16 columns, three line ends); `server_follows_editor_partial`: after every session the server's lines are the
  editor's, if carriage returns come before newlines and no column counts past a character outside the basic plane.
  Without these conditions it is false: `columns_utf16_refuted`, `lone_cr_refuted`.
* **C31** (`LiveDocument.v`, `P_SavedLines.v`) `saved_lines`: every edit sequence, any text and range. Where a line was at the
  last save is computed from the line numbers of the edits alone (`origin`). `env_line_panics`: exactly for lines below the end;
  that `im::Vector::take` panics there is taken from its documentation. Line numbers are unbounded in the model.
* **C32** (`VarStack.v`, `P_VarStack.v`) `levels_are_positions`: every scoped use (new names, the last few removed in any
  order, fewer than 65536 variables). `shadowing_refuted`: inserting a name twice makes `names` panic. That callers
  insert new names only is not modelled.
* **C45** (`PipelineMerge.v`, `P_PipelineMerge.v`) partial. Schedules are interleavings of loading and arrival.
  `merge_is_sequential_partial`: at the end of every schedule nothing waits and the state is that of merging in index
  order; without errors all modules are merged, so status, metrics, cache, timings and events agree, up to the totals
  shown with the progress. `sequential_totals` says what merging in order yields. False in general:
  `progress_total_refuted`, `error_schedule_refuted`, `event_progress_refuted`. Workers are not modelled; the result of a
  module is taken to be a function of the module.
* **C33** (`Termination.v`, `P_Termination.v`) partial. Values get a meaning in any domain whose binders are extensional and
  where matching yields parts (`world`). `accepted_calls_decrease`: for an accepted body there is one argument position
  such that the value of the body depends on the function only where that argument is a part of the given one.
  `accepted_definition_unique`/`_exists`: exactly one function satisfies the definition if "part of" is well-founded;
  `accepted_definition_terminates`: with finite values unfolding stabilises, calls nest at most as deep as the value.
  All bodies, any use of lambdas, quantifiers, partial and curried application. Assumed (`bound_clean`): the function
  has no family parameters and does not occur in the family values of constants; both are needed:
  `family_definition_refuted`, `family_definition_panics`, `family_value_refuted`. Values inside types are not modelled.
* **C35** (`P_PdtKeys.v`, `Pdt.v`): keys of terms, pairs and clauses with at least one literal are prefix-free and
  injective on the terms, and read back as the edges of the term. Ids are below 65536, as in the code. The context of a
  clause is not part of its key, the empty clause's key is a prefix of all keys, and an edge for the symbol `true` has the
  bytes of the edge for the truth value (three `_refuted` theorems). The trie of the `qp_trie` crate is modelled as an
  association list with the same `get`, `insert` and `subtrie`.
* **C36** (`P_LiteralSet.v`): whatever the index returns is an inserted literal with a map that turns it into the query, sides
  exchanged if it says so, with types respected for variables of plain types (closed and not a typeclass). The matcher of
  types is a parameter that is assumed to accept a closed type for itself only. Completeness is partial: the literal is
  numbered by first occurrence, no other context is stored for its terms, types are matched exactly, and the query has fewer
  than 500 symbols. Each condition is needed (findings).
* **C34** (`P_Fingerprint.v`, `Fingerprint.v`): for every sequence of insertions, a stored term that has a common instance with the
  query under maps that respect types is returned, and a stored literal that is an instance of the query is returned.
  Instances are syntactic (no beta reduction). Assumed: all subterms have types, no binder is applied, symbol types are
  closed. Excluded, and shown to be missed: a query that is a type against a stored variable ranging over a type class. The
  hash map of sorted maps is a list of its entries; the order of the results is not modelled.
* **C44, C49** (`GeneralizationSet.v`, `GeneralizationSetProofs.v`, `P_GeneralizationSet.v`) partial.
  `GeneralizationSet.v` models all of `generalization_set.rs`: the substitution-invariant comparison of terms and literals, the
  forms stored for a clause (every choice of directions, every non-increasing order), the form looked up, insertion and lookup.
  A type lookup that panics is an outer `None`. The stable sort of the query's literals is the insertion sort of the model; which pairs
  `sort_by` compares is left open by the library, so the model panics if any pair does not compare. The set is built on the clause
  index of C36.
  * `concrete_terms_are_ordered`: on typed terms of symbols and applications the comparison always answers, is equal only for identical
    terms, and is antisymmetric and transitive.
  * `comparison_is_stable`: an answer stays the same under every type-respecting map, for terms without applied binders.
  * `found_clauses_are_generalizations`: for every insertion sequence, a returned id belongs to an inserted clause with
    the query as instance, up to the order of literals and sides; variables of closed type are mapped to terms of that type.
  * `simple_lookups_do_not_panic`: typed, non-empty queries of symbols and applications never panic.
  * `instances_are_found_partial`: every typed instance of an inserted clause is found. Missing: type variables, forms with the same
    literals and other types (overwritten, see C36), queries with binders (they panic), 500 symbols or more.
  * `lambda_lookup_panics_refuted`, `empty_query_panics_refuted`, `types_are_matched_separately_refuted`: the cases in
    which the claim fails.
* **C43, C50** (`Scanner.v`, `ScannerProofs.v`, `P_Scanner.v`). Characters are code points, indices count UTF-8 bytes; slices off
  a character boundary are panics; `start`, `len` and the line number are cut to 32 bits as in the code (an overflow of the line
  number, a panic in debug builds, is modelled as wrapping). `str::lines` and `char_indices` are modelled from their documentation, the Unicode
  table behind `is_alphanumeric` is a parameter about which only this is assumed: blanks, newlines, brackets and operators are not
  alphanumeric.
  * `scanning_covers_the_input`: every text below 4 GiB is cut into lines and scanned without panic; the tokens of a line
    are, at each position that is not blank, the longest token of the lexicon `lexeme` (or one invalid character).
    `texts_spell_the_line`, `tokens_are_ordered`, `token_texts_and_positions` (byte slices and UTF-16 positions never panic and
    are those of the token's piece), `tokens_are_determined` (no other token list satisfies the specification).
  * `long_lines_wrap_refuted`: beyond 2^32 bytes positions wrap, hence C43 is partial.
  * `printed_tokens_scan_back`, `printed_types_scan_back` (C50, proved).
* **C51** (`Monomorphic.v`, `MonoProofs.v`, `MonoNorm.v`, `MonoReduce.v`, `MonoUnify.v`, `MonoRules.v`, `MonoMatch.v`, `MonoInfer.v`, `MonoClaim.v`, `P_Monomorphic.v`).
  `Monomorphic.v` is specification: a typing judgement `has_type` for terms whose types have no type variables (polymorphic
  constants applied to such types are allowed), and `mono`, the clauses typed by it without applied lambdas. Proved:
  `mono` is kept by clause construction, term normalization, boolean reductions, equality resolution and factoring,
  injectivity, extensionality and the equality graph, and all of these are sound on it; matching of `mono` clauses is
  matching of instances. So `mono` is a `fragment` (`monomorphic_fragment`), which turns the conditional soundness theorems of
  C01 and C02 into `monomorphic_checking_sound` (every history of deep insertions and checks: no contradiction, and only
  true clauses are confirmed) and `monomorphic_trace_sound_partial`. `monomorphic_claims_hold`: the specialized clause of a claim
  whose arguments have the types of their variables is `mono` and follows from the generic one, also when instance calls are
  replaced by their aliases. With it `monomorphic_claim_traces_sound`: an accepted trace of such claims refutes the facts in every
  interpretation; the only condition on a step besides typing is the one against F1 (where the generic clause is inserted
  on the strength of the specialized one the claim has no arguments). Witness declarations are in C64 (`monomorphic_witness_traces_sound`).
  Hypotheses about the kernel context: `closed_types` (types of constants are closed) and `parameters_used` (every type
  parameter of a constant occurs in its type). The second is needed, `phantom_parameters_refuted`.
  Hypotheses about the interpretation: `respects` (constants have their types) and `eta_model`. Every variable's type has
  elements, against F2 and F5. Not covered: clauses with type variables.
* **C52** (`ClaimValidation.v`, `P_ClaimValidation.v`). The model follows `src/kernel/certificate_step.rs:101-241`: the context of
  the replacements, the expected types of map entries, the types of the variables and literals of the generic and the specialized
  clause. `validated_claims_hold_partial`: the specialized clause of a validated claim holds wherever the generic one does, provided
  the map's terms are values or types that are well-typed in the model, types are in normal form, no mapped variable ranges over a type class, and the
  unmapped variables' types do not mention mapped ones. `validated_clauses_are_typed`: both sides of a
  validated literal are elements of one type. Each of these is needed: `class_arguments_refuted`,
  `kind_arguments_refuted` and `unchecked_binders_refuted` are validated claims that break one of them, two of them with a
  specialized clause that is false where the generic one is true. Not modelled: `SatisfyStep::validate_checker_payload`. The validation runs
  when a certificate is written (`certificate_trace.rs:650`), not when it is checked.
* **C53** (`Expression.v`, `ExpressionProofs.v`, `ExpressionTokens.v`, `ExpressionFuel.v`, `P_Expression.v`) `expression_parsing_ends`: with fuel `4 * tokens + 2` the parser never runs out, and more fuel
  changes nothing, so the fuel is no restriction. `parsing_keeps_the_tokens`: the tokens read are a prefix up to the terminator; without newlines they are the tokens of the expression. Two hypotheses: the tokens
  are spelled as their types (true of scanned ones) and contain neither `function <` nor `] ( )`, for which the claim is false (`function_brackets_change_refuted`).
  `printing_then_parsing_gives_the_same_expression` has only the first of them: parsing what was printed gives the same tree, with whatever follows, for the same terminators or terminators that never stand inside an
  expression. Modelled: `Expression::parse`, `parse_partial_expressions` with all its branches, `combine_partial_expressions`, `find_last_operator`, `group_type_parameters`, `looks_like_type_params`, the check of partial
  expressions, `Declaration::parse_list`, `TypeParamExpr::parse_list`, value blocks, match cases, the operator tables. Not modelled: local `let` in braces (the model returns `LocalLet`, which is neither success nor error; every
  theorem is about successes), error messages, token positions; the terminator `else`, which the code never uses, is excluded. The tests of `expression.rs` run on the model (`values_case`, `types_case`, `not_values_case`).
* **C54** (`ExpressionRound.v`, `P_Expression.v`) `wf` says, operator by operator, that what stands to the left and to the right binds tightly enough; `precedence_trees_read_back`: such trees parse back, and
  `tokens_determine_the_tree`: two such trees with the same tokens are equal. `level_ok` are the parser's two extra conditions on one level: no `<` with a `>` after it and only type-like things between, and one `implies` between commas.
  `generated_binaries_read_back`, `generated_unaries_read_back`: the generator's parentheses suffice, with three exceptions stated as hypotheses and shown real by `negation_on_the_right_refuted`,
  `implication_on_the_left_refuted` and `comparisons_as_arguments_refuted`. Not in `wf`: `match`, generic function literals, postfix `?`, `if` without `else`.
* **C55** (`ExpressionDisplay.v`, `ExpressionTidy.v`, `P_Display.v`) `parsed_expressions_print_and_read_back`: from a source text, through scanner, parser, printer, scanner and parser again, the expression is the
  same; `built_expressions_print_and_read_back` for the trees of C54; `texts_determine_the_tree`. `apart` says which tokens may stand next to each other, and `apart_longest` justifies it from the specification
  of the scanner. `printed_as_written` runs about sixty strings of the repository's tests. Modelled: `pretty_ref` with `flat = true` (`space()` of the `pretty` crate is the text `" "`, `nest` and `group` do
  nothing on one line). Not modelled: the multi-line layout (`flat = false`) and the arm for `Block`. Texts of 4 GiB and more are excluded, as in C43.
* **C56** (`Clausifier.v`, `PolyTyped.v`, `ClausifierProofs.v`, `ClausifierConv.v`, `ClausifierExt.v`, `ClausifierLits.v`, `ClausifierMain.v`, `P_Clausifier.v`) `clausifying_keeps_models`: an equivalence in every
  interpretation, not only preservation. The specification is the typing judgement `PolyTyped.typed` (rank-one polymorphism, types without values) and the meaning of terms and clauses of C05. `all_inhabited` asks that
  every well-formed type over the type variables has an element; it is needed because the normalization of clauses drops variables (F5). Modelled: all of `clausifier.rs`, including `shallow_term_to_clauses`,
  `term_to_clause_set` and the exact lowering, which C56 is not about. Left out: the `stack`, which is pushed and popped but never read, and `next_var_id`, which is always the length of the context. Shown along the way:
  `ExtendedTerm::If` is never made from a term, so the branches of the code for it are dead (`ext_ok` excludes it). Not shown: that the lowering of a typed term never answers `Err`.
* **C57** (`MatchSpec.v`, `ClausifierSets.v`, `ClausifierTidy.v`, `ClausifierCases.v`, `ClausifierInd.v`, `ClausifierMatch.v`, `P_ClausifierMatch.v`) `clausifying_matches`: again an equivalence. The hypotheses on the
  eliminators are stated in `MatchSpec.v` without the model's functions: `match_metadata` on their types, `eliminators_compute` on their values (each element of the data type is a constructor applied to fields, and the match on it is
  the case applied to these fields). The cases `mc_metadata`, `mc_symbols` and `mc_computes` show them of an interpretation with two data types. The hard part is that a set of clauses with new variables says something for all of their values, so it may
  be joined with "or" but not negated: `says` carries this, and only sets without new variables (`says g g`) are negated. This is what fails in the two refutations, `clausifying_nested_matches_refuted` and
  `clausifying_function_conditions_refuted`, where everything except `tidy` holds. `tidy` also asks that only atoms are applied, which holds of beta-normal terms.
* **C58** (`Positivity.v`, `PositivitySem.v`, `PositivitySpec.v`, `Containers.v`, `PositivityProofs.v`, `PositivityPoly.v`, `P_Positivity.v`) `accepted_inductive_types_exist`, and `accepted_plain_types_exist` without any condition on other datatypes when
  none is applied to the new type. `Bool` denotes `Prop` and function types denote all Coq functions, so that an interpretation is a standard one; the facts are those the code adds, with induction hypotheses only for fields of exactly the inductive
  type. `filled` (shapes and places jointly in several arguments) is what strict positivity of a datatype means; the code's table records positivity, and this is one of the three refutations: `imported_variance_refuted`, `double_negation_refuted`,
  `family_argument_refuted`. Each of them gives a project that `accepted` accepts and shows that no interpretation satisfies its facts. The two existence theorems use functional extensionality from the standard library. Not covered: declarations that use the type at
  other parameters (`inductive D[T] { nil  cons(T, D[List[T]]) }`), and that a datatype declared by strictly positive constructors is `filled`.
  (`ProjectProofs.v`, `P_Project.v`) `accepted_projects_exist`: the declarations of a whole accepted project, with any imports, have a common interpretation, if inductive types are not within the arguments of other datatypes in their own declaration. The interpretation is built
  declaration by declaration; earlier facts stay true because earlier types do not mention the new one. `refused_plain` is a project that satisfies the same conditions, is refused, and has no interpretation.
* **C59** (`VarianceSem.v`, `VarianceProofs.v`, `P_Variance.v`) `computed_variances_right` for one type and a right table, `recorded_variances_right` for a module. Variance is stated with relations and not with functions because the powerset has maps in both directions, while its
  relation only shrinks when the relation for the parameter grows (`set_not_covariant`). The relation of an inductive type is the least one that its constructors respect, for all parameters together. Families are assumed covariant, as the code does. `exchanged_parameters_refuted`:
  while the variances of an inductive type are computed it counts as covariant itself, which is wrong when it occurs with other parameters. Not covered: imports, for which C58 has a refutation.
* **C60** (`TypeMatch.v`, `TypeMatchSpec.v`, `TypeMatchProofs.v`, `TypeInferProofs.v`, `P_TypeMatch.v`) `matching_right`, `matching_respects_classes`, `matching_finds`, `inference_well_typed`, `inference_finds`, for every registry of instances. Left out: type families and value parameters
  (and with them the second attempt of `try_resolve_with_inference`), so that there are no values in types. Values are represented by their types. The kinds of errors are not distinguished. The fuel of the matching function is shown to be enough by `matching_finds`. The case of more generic
  arguments than the instance has can never succeed for normal types; the proof of `match_fuel_sound` shows it.
* **C61** (`TypeMatch.v`, `InstanceProofs.v`, `P_Instances.v`) `instance_search_right`, `instances_inherit`, `search_inherits`. The registry of one module; imports, which merge the tables, are not modelled, and neither are the attributes and conditions of typeclasses.
* **C62** (`SearchRules.v`, `SearchProofs.v`, `SearchRewrite.v`, `SearchSimplify.v`, `P_Search.v`) `search_resolution_sound`, `search_rewriting_sound`, `waiting_simplification_sound`, `active_simplification_sound`, and for whole derivations `search_sound` and `found_contradictions_are_real`.
  The clauses are monomorphic (Monomorphic.v), so all types that occur have elements. Which pairs of clauses meet, the scores and depths, the proof steps that record premises and witnesses, and the choice of named witnesses for positive existential literals (C63) are not modelled: `derived` allows any pairs.
  The witness search (`witness_map_for_eliminated_vars`) and the test for inhabited types are oracles with arbitrary answers. Rewriting is modelled for targets without variables, as in the code. Type kinds end in `Type0` (`type_kinds`), instance aliases have the type and meaning of the attribute
  (`aliases_agree`). The index of the active literals is the one of C36, whose theorem `found_literals_are_generalizations` now also says that the values found are closed; its conditions (`op_fits`, `fitting`) are those of C36. Injectivity and extensionality start from clauses without redexes as in C08.
* **C63** (`Witness.v`, `WitnessProofs.v`, `P_Witness.v`) `witness_opening_conservative`, and for whole searches `witnessed_search_sound`, `witnesses_conservative` and `witnessed_contradictions_are_real`.
  The clauses are monomorphic as in C62, so moving type parameters to the front (`hoisted_order`) changes nothing. That the constant is new (`fresh`: no type of a constant, no clause of the search and no instance alias mentions it) is a condition of each step and stands for `next_name` and `add_constant`.
  The names, the source-level signature, the type store and the stored entries of the registry are not modelled, and `boolean_reduction_is_sound` is an oracle with arbitrary answers. Instance aliases are looked up by types without variables.
  `witness_opening_conservative` also covers replayed certificates, where obvious witnesses are allowed.
* **C64** (`WitnessDecl.v`, `WitnessDeclProofs.v`, `P_WitnessDecl.v`) `witness_declarations_conservative`, `monomorphic_witness_traces_sound`, `new_witness_lines_declare`; refuted for constants of the registry: `reused_witnesses_refuted`, `registered_clauses_refuted`.
  `monomorphic_witness_traces_sound` is C01 for traces of claims and declarations. The types of all declared constants are known from the start of the trace; the code adds them while it parses the lines, before it checks the trace.
  Declarations have no type parameters. In `parse_satisfy` the clausifier leaves the body as one literal; the trace theorem allows any asserted clauses that follow from the declared one. The names, the scoping of names and the source-level values are not modelled:
  a declaration is given by its lowered types and body, and whether a constant of the registry may be used is only the comparison of the clauses.
* **C65** (`BlockExport.v`, `BlockExportProofs.v`, `P_BlockExport.v`) `externalized_meaning`, `if_statement_sound`, `match_statement_sound`, `theorem_statement_sound`, all without axioms.
  All 14 forms of values are modelled. Constants have a module, a name and an instance type; type parameters, values in types (families, dependent arguments) and the types of instance attributes are left out, so `to_arbitrary` and the operations on types do nothing.
  Interpretations have a truth value for every element, laws for the connectives, equality and the quantifiers, and any functions for application, lambda, `?`, if-then-else and match. That the interior of a block is proved is a condition: its claim holds for all values of the arguments under the premise, for some values of the local constants
  (that local declarations have such values is C63 and C64 for witnesses). That the names of arguments differ is a condition too; `evaluate_pattern` checks it, the forall statement only checks each name against the outer environment.
* **C66** (`LoweredModule.v`, `LoweredModuleProofs.v`, `P_LoweredModule.v`) `builder_uses_visible_facts`, `claims_not_circular`, `verified_exports_hold`, all without axioms.
  Facts and goals are any values, and lowering them succeeds (an error makes the module fail). Imports, kernel contexts, the goal filter, evaluation runs and the stop at the first warning are left out, so this is about complete runs.
  `verified_exports_hold` has two conditions: every goal follows in all worlds from the facts it was verified with (the subject of C01 to C08 and C62; the findings list where the code does not ensure it), and the nodes are `scoped`:
  structural facts hold in the worlds of their level where the earlier facts hold, a proved goal gives its fact, outer facts keep holding inside of blocks, and what a block exports follows from what this and earlier blocks of its level show (C65 shows this for the facts of forall, if, match and theorem statements).
* **C67** (`Simplify.v`, `SimplifyProofs.v`, `P_Simplify.v`) `remove_line_range_exact`, `simplify_terminates`, `simplify_safe`, `simplify_in_order`, `dry_run_predicts`, `removed_claims_local`, all without axioms.
  `load_target` is a given function of the source; the search and `verify_edited_target` are given functions that also get the number of the round, since they have time limits. So `dry_run_predicts` is about runs whose searches have the same outcomes.
  Nobody else changes the file and `std::fs::write` succeeds as a whole (it is not atomic: a crash within it can leave a part). Options, messages, paths and certificate caches are left out.
  `simplify_terminates` needs that the lines of claims are lines of the source with the first not behind the last; the other theorems do not. `removed_claims_local` is about items that were lowered as in C66. That the rest of the text on the lines of a claim is not needed is only ensured by loading and verifying the edited source.
* **C68** (`BuildModule.v`, `BuildModuleProofs.v`, `P_BuildModule.v`) `good_record_verified`, `good_status_verified`, `check_mode_checked`, `saved_records_verified`, `saved_records_refuted`, all without axioms.
  Checking a certificate, searching, making a certificate and cancellation are given functions of the goal and its facts, one set for each module. Evaluation mode, interface modules, surface checks, suppressed certificates, strict mode, parallel work and modules that are skipped as unchanged are left out; what is skipped is C46, whose builds verify every module that they record, so that the finding below is outside of its model.
  The statement is refuted for saved records if the builder stops at warnings and there is more than one batch (see the findings); `saved_records_verified` covers all other runs, and `good_record_verified` has the condition on one module: the status before was good if the builder stops at warnings.
* **C69** (`BuildReplay.v`, `BuildReplayProofs.v`, `P_BuildReplay.v`) `recorded_module_replays`, `build_then_check`, both without axioms. In the model of C68, with two hypotheses on the given functions: a trimmed certificate checks and is for the same goal (C48 shows it for trace certificates), and a made
  certificate checks and is for its goal. The code ensures the second one only with the feature `validate` or when it prints proofs (builder.rs:2442-2505); without it a made certificate that does not check would be found by the next run. Sources and facts are the same in both runs and nothing is cancelled in the second. That certificates pass through the file unchanged is assumed.
  The unused certificates are in the order of the worklist in `verify_module`, while the code takes them in the order of a hash map (C24); the theorem allows any others behind the used ones.
* **C70** (`LineFilter.v`, `P_LineFilter.v`) `line_filter_exact`, `range_filter_exact`, `validated_goal_selected`, `prerequisites_verified`, `prerequisites_refuted`, all without axioms. The first lines of goals are given in the order of verification, which C66 shows to be the order of their numbers; the decisions are the filter
  of C68. Lines have no bound, and line 0 is no value (the subtraction of builder.rs:2170 overflows). `prerequisites_verified` has the condition that no goal before the selected one begins on a later line; without it the last part of the statement is refuted.
* **C71** (`EvalSkip.v`, `EvalSkipProofs.v`, `P_EvalSkip.v`) `eval_skip_exact`, without axioms. Processors are the lists of their facts as in C66; imports of goals, samples, counts of certificates and the outcomes of searches are left out, so that every goal is reached.
* **C72** (`TargetLine.v`, `P_TargetLine.v`) `named_lines_selected`, `selected_lines_named`, `other_targets_whole`, `line_zero_refuted`, all without axioms. Strings are lists of code points; the texts of errors and the arguments that clap parses are left out. That every accepted line can be selected is false (finding below).

## Findings

Places where the code does not do what the property says; each has a `..._refuted` theorem unless
marked as a reading.

* F4: extensionality peels a type variable that other variables' types mention (C09).
* F5: normalization drops variables of possibly empty types (C05, and with it C08).
* F7: clause matching compares types under the incomplete map, so a type variable that is met after
  a variable of that type yields an ill-typed map, and a clause that does not follow is accepted (C14, for C02).
* F8: `specialize_clause` leaves the types of unmapped variables unsubstituted (C13).
* `Term::replace_variables` ("at once") replaces one after the other (C13).
* Clause normal forms depend on variable names (C20).  `is_tautology` trusts the literal order (C05).
* Extended KBO calls distinct terms with binders equal (C18); its u8 counters and u32 weights wrap (C19).
* The 16-bit offsets of the flat term encoding wrap for large terms (C17).
* Injectivity compares head atoms, which for an applied lambda is the head of its domain (C08).
* Two races in the language server's project manager (C41, C42).
* F10: `unify_atoms` identifies a typeclass with `Type0` also below binders, so
  `lambda(T: C) {..} != lambda(T: Type0) {..}` resolves to the empty clause (C07).
* F11: after `a = b or c = d or e = f` and `a != b` are inserted the graph keeps only `c = d or e = f`; `check_clause`
  then rejects the three literal clause it accepted before (C47). Incompleteness only.
* F2: `mark_inhabited_from_clause` ignores the clause's own variables: `forall(x: B) { exists(z: A) { p(x, z) } }` marks
  `A` as inhabited although `B` may be empty. Two true clauses then contradict, and equality resolution drops
  variables of `A` and proves a false clause (C02).
* F9: `clauses_contradict_for_trace` takes `q(x0)` and `not q(x0)` for a contradiction although `x0` may have no values (C02).
* F1: a claim step is justified by its specialized clause but makes its generic clause known. The certificate
  `function(x0: Bool) { x0 }(true)`, then the instance `not true` of it, is accepted for every goal (C01).
* Leftover certificates are appended grouped by goal, in hash order (C24).
* `Score::new` and `Score::batch` order contradictions differently among themselves (C38).
* Reading: `singles` of the passive set keeps entries of steps that are gone, so a contradiction with a later copy
  is not noticed (C37). Incompleteness only.
* F3: with no provider for a class, `provably_inhabited` accepts a type variable of the class when some instance has
  elements; other instances may be empty (C21, `inhabited_by_other_instance_refuted`).
* A provider of a type constructor that needs a typeclass replaces an unconstrained one and is then used at every type
  (C21, `constructor_witness_refuted`).
* `record_inhabited_type_constructor` compares a De Bruijn index with a depth: `f : (A: C1, B: C2) -> A` is recorded as
  returning members of `C2` (C21, `class_witness_refuted`).
* For a typeclass as the type of a variable, an instance of a base class is taken (`base_instance_refuted`), or the
  variable that is to be erased itself (`erased_class_variable_refuted`) (C21).
* Reading: for a constructor `mk : W(W(T)) -> W(T)` the search for an element of `W(T)` does not end (C21).
* Certificates are saved by emptying the file first (C25). Manifests are saved atomically (C26).
* A partial build (`verify <target>`, or any build of the language server) keeps manifest entries of modules it did not
  verify. After `b` is edited and only `b` is verified, `a`, which imports `b`, is skipped as unchanged although it was
  never verified with the new `b`; the dependency hashes in the manifest are not consulted (C46).
* `foo` and `foo.interface` name the same source file (C28).
* In a project below a directory `certs`, and for a module with a part `certs`, certificates are saved and never loaded (C28).
* An empty token hides the token around it from hover (C29). Reading: an empty token has to be tracked for that.
* The server counts columns in characters although the protocol counts UTF-16 units: after an edit behind a character outside
  the basic plane the server's text differs from the editor's (C30, `columns_utf16_refuted`).
* A lone carriage return ends a line for the editor and not for the server (C30). A refused edit still advances the
  version (C31, `version_of_refused_edit`). `get_env_line` panics for a line below the last one (C31).
* The variable stack does not support shadowing: `names` panics after a name is inserted twice (C32).
* In a parallel build all goals of a module report the same progress, and the total reported depends on how far loading is.
  After an error the number of modules that are still built depends on timing (C45).
* **Unsound**: inside `attributes` of a datatype family with value parameters, those parameters come first on the stack
  (binding_map.rs:2364-2369), but the termination checker is created with the number of the arguments only
  (2446) and takes levels `0..n` for the arguments. With a parameter `p: Nat` the definition
  `bad(a: Nat, b: Nat) -> Bool { match p { zero { true } suc(k) { not bad(b, b) } } }` is accepted, although no
  function satisfies it (C33, `family_definition_refuted`). The usual recursion on an argument panics with an index out of
  range (`family_definition_panics`).
* The termination checker does not look into the family values a constant carries (`bound_value_args`) (C33, `family_value_refuted`).
* The literal index overwrites: `x0 = x1` inserted for type `A` and then for type `B` is no longer found for `A` (C36,
  `same_terms_at_two_types_refuted`).
* A polymorphic literal whose terms do not mention its type variable first is numbered from `x1` on, and is never found,
  not even by itself (C36, `type_variable_first_refuted`).
* A literal of 500 symbols or more is never found (C36, `long_literals_are_lost_refuted`).
* Looking up the empty clause in a clause index that is not empty panics (C36, `empty_clause_lookup_panics_refuted`).
* The fingerprint index does not search the trees of type classes for a query of type `Type0`, although its own `could_match`
  says they match (C34, `types_miss_class_variables_refuted`).
* The category of an applied binder is taken from the type of variable `x0`, whatever that is (C34,
  `applied_binder_refuted`); such terms are beta-reduced before they are indexed.
* The generalization set panics on concrete clauses with a lambda or quantifier ("Concrete terms should always be comparable"),
  and on the empty clause (C44, `lambda_lookup_panics_refuted`, `empty_query_panics_refuted`). Only tests use the set.
* Types are matched variable by variable, so `x0 = x1 or x2 = x3` over one type variable is returned for a clause with
  literals at two types (C44, `types_are_matched_separately_refuted`).
* In a line of more than 2^32 bytes token positions wrap around (C43, `long_lines_wrap_refuted`); the comment "scanning always puts a
  NewLine token at the end of the input" is false for the empty text (`empty_text_has_no_newline_refuted`).
* A constant with a type parameter that its type does not mention makes injectivity produce a literal between types: from
  `h[Bool](c) != h[A](c)` it derives `Bool != A` (C51, `phantom_parameters_refuted`).
* The validation of claims accepts any type for a variable over a type class, instance or not (C52, `class_arguments_refuted`).
* It accepts the kind of types as a type, since `Type0` has itself as type (C52, `kind_arguments_refuted`).
* `checked_type_with_context` does not look into bodies of quantifiers, nor into the sides of function types, so
  `forall(x: A) { c }` with `c: A` passes as a boolean (C52, `unchecked_binders_refuted`).
* **A negation to the right of an operator loses its parentheses** (C54, `negation_on_the_right_refuted`). `generate_binary` (`expression.rs`) and `value_to_binary_expr` (`code_generator.rs` 77-111) take the precedence
  of a unary expression on the right as the maximum, so `x = not (a != b)` is printed `x = not a != b`, which parses as `(x = not a) != b`. The operand's own operators are looser than the outer one only for `not`
  (6) under operators of precedence 7 and more.
* **`(a implies b) implies c` is printed without parentheses and rejected** (C54, `implication_on_the_left_refuted`): the generator treats `implies` as left-associative, the parser does not allow two on one level.
* **`f(a < b, c > d)` does not parse** (C54, `comparisons_as_arguments_refuted`): `<` up to the next `>` is taken for type parameters. `f(c > d, a < b)` parses.
* **A question mark on a sum** (C54, `question_marks_refuted`): the generator prints `(a + b)?` as `a + b?`, which is `a + (b?)`, since `unary_precedence(QuestionMark)` is 0; and `a? - b` does not parse, since the minus is taken
  for a prefix after a question mark.
* **A match on the value of a match is clausified unsoundly** (C57, `clausifying_nested_matches_refuted`): `term_eq_to_clause_set` negates the clauses of "scrutinee = pattern". If the scrutinee is a match itself, these clauses speak about fresh
  variables for its fields, for all of their values, and negating their literals claims the negation for all values too. From the true `get(b) = match (match b { put(c) { c } }) { red { red } blue { blue } }` it makes the clause
  `red != x0 or get(x1) = red`, which is false. Found by trying to prove `clausifying_matches`; not run against the code.
* **A condition that compares functions is clausified unsoundly in a match** (C57, `clausifying_function_conditions_refuted`): in the case of a Boolean match, `if f = g { p } else { false }` makes one literal `f(x) = g(x)` of the condition, and
  the if-then-else negates it to `f(x) != g(x)` for all `x`, where it should hold for some `x`.
* `ExtendedTerm::If` is never made from a term (`ext_ok`), so the code for it in `eq_term_to_clause_set` and elsewhere is dead; converting a lambda leaves variables in the context that no literal has.
* **The variances of imported datatypes are lost, so inconsistent inductive types are accepted** (C58, `imported_variance_refuted`): `DatatypeDefinition::import` copies attributes, instances, parameter kinds and structure fields, but not `variances`, and a
  datatype without variances counts as covariant. With `structure Set[T] { contains: T -> Bool }` in one module, `from set import Set` and `inductive Bad { base  rec(Set[Bad]) }` in another pass the check, although `rec` and `Set.new` are injective and
  so `Bad` has an element for every predicate on `Bad`. The same two declarations in one module are refused (`local_set_refused`). Found by reading while modelling; not run against the code.
* **Positive is not strictly positive** (C58, `double_negation_refuted`): `structure Search[T] { find: (T -> Bool) -> Bool }` gets the variance `Positive`, and `inductive Bad { base  rec(Search[Bad]) }` is accepted, with the same contradiction. Written without
  the structure it is refused.
* **Arguments of families are not checked** (C58, `family_argument_refuted`): `check_strict_positivity` and `contains_inductive_type` ignore `AcornType::Family`, so with `structure Pred[T, b: Bool] { holds: T -> Bool }`,
  `inductive Bad { base  rec(Pred[Bad, true]) }` is accepted.
* Reading: the induction principle has no hypothesis for fields like `List[D]` or `Nat -> D`, so it is only a case distinction there (sound, but weak); and the check for a base case lets `inductive D { mk(Nat -> D) }` pass, whose least model is empty (C58).
* **Wrong variances for a type that uses itself at other parameters, and an inconsistent inductive type accepted because of them** (C59, `exchanged_parameters_refuted`): `inductive Foo[T, U] { leaf(T -> Bool)  swap(Foo[U, T]) }` gets `Both` for `T` and `Positive` for `U`,
  because `Foo` itself counts as covariant while its variances are computed. `U` is not covariant: `swap` and then `leaf` take predicates on `U`. So `inductive Bad { base  rec(Foo[Bool, Bad]) }` is accepted, with an element for every predicate on `Bad`. One module is enough.
  Iterating the computation until nothing changes, beginning with `None` for all parameters, would give the right variances. Found by trying to prove C59; not run against the code.
* **Inference refuses arguments for a result that becomes a function** (C60, `more_arguments_refuted`): the identity `T -> T` applied to a function and an argument for it is refused with "expected 1 arguments", although the application is well typed for `T` a function type. Harmless: it can be written
  with two applications.
* **The occurs check makes instances depend on names** (C60, `own_variable_refuted`; C61, `variable_name_refuted`): a type variable is not matched with a type that contains a variable of the same name, not even with itself. So `List[T]` for a type variable `T` counts as an instance of a typeclass or not
  depending on the name of the parameter in the instance statement. Types in proofs have arbitrary types instead of variables, so that this needs generic arguments.
* **Waiting clauses are simplified over types without elements** (C62, `waiting_empty_types_refuted`): `P(x) or q` and `not P(x)` give `q` when the clause waits, also if nothing is known about the elements of the type of `x`. passive_set.rs:619-636 checks the types only if the result is empty,
  while `simplify` of the active set checks every variable that disappears. With an empty type both clauses hold and `q` need not. The checker would have to reject the step afterwards.
* **Simplification drops clauses that are not redundant** (C62, `dropped_clauses_follow_refuted`): if a variable of a type that may be empty would disappear, active_set.rs:1516-1547 rejects the simplification by returning `None`, which drops the clause instead of keeping it as it was. The clause need not
  follow from the others, so that the search loses it. The same happens in passive_set.rs for a simplification to the empty clause.
* **Reused witnesses with other arguments** (C64, `reused_witnesses_refuted`): a `let h(x, y) -> z satisfy { P(y, x, z) }` line of a certificate has the same normalized existence clause as a source-level witness `w` with `P(x, y, w(x, y))`, since normalization numbers the variables by first occurrence. The parser takes `w` for `h`
  and the line asserts `P(y, x, w(x, y))`, which nobody showed. `validate_checker_payload` computes the same clauses and does not notice. With facts that have a model the checker accepts a certificate of a contradiction. A function needs a witness that is known as a scoped constant, as those of local `let ... satisfy` statements are.
  Comparing the declared clauses, not only the existence clauses, would repair it. Found by reading and by trying to prove C64 for all lines; not run against the code.
* **The registry's clause of a source-level witness may be false** (C64, `registered_clauses_refuted`): `insert_existing_positive_exists` applies the constant to the variables of the normalized clause in their order, while `capture_context_for_local_witness` gave it the variables of the stack in the order of the stack. Where the two orders differ,
  the registered clause says something else than the source. The same cause as above; not run against the code.
* **`verify --fail-fast` can record modules as verified that were not** (C68, `saved_records_refuted`): after a warning, `process_module_work_batch` stops only within its batch, while it and the loop of verifier.rs:669-686 test only for errors before the next batch. The first module of each later batch is then verified with the
  status `Warning`, so that `verify_lowered_items` stops behind its first item (builder.rs:2845). `current_module_good` is still true, the module is inserted with its content hash, and verifier.rs:798 saves the cache unless there was an error. A later `verify` that compares hashes skips the module as unchanged, if its dependencies
  match too, although its goals were never proved; `--ignore-hash` or `check` would notice. Batches have `check_jobs` modules, and `exit_on_warning` excludes parallel work, so this needs more modules than jobs. Testing `exit_on_warning && !status.is_good()` at the beginning of `process_module_work_batch` would repair it: then at most the first batch with a
  warning makes records. Found by looking for a caller that violates the condition of `good_record_verified`; not run against the code.
* **Selecting the line of a theorem does not verify its proof** (C70, `prerequisites_refuted`): the goal of a theorem begins on the line of the theorem (definitions.rs:1100-1103, block.rs:508-513) and is verified behind the claims of its `by` block, whose lines are later. `should_verify_for_line_filter` compares lines only, so that
  `verify MODULE:LINE` with the line of the theorem skips these claims, adds their facts, proves the goal from them and reports success, although the comments of `GoalFilter` and `set_goal_range` say that earlier goals are verified as prerequisites. The same for a range that ends on that line. Nothing is recorded in the cache by such a run. Found by
  trying to prove the comment; not run against the code.
* **Line 0 is accepted and overflows** (C72, `line_zero_refuted`): `parse_target_and_line` accepts `MODULE:0`, `MODULE:0-5` and `--line 0`, and no caller checks the line. `set_single_goal_with_index` and `set_goal_range` subtract 1 from it (builder.rs:2172, 2197-2198): with overflow checks this panics, and without them the line is 4294967295. Expected: an error that lines begin with 1. The model has no value there; that the subtraction wraps in a release build is read from the code and not modelled; not run against the code.
