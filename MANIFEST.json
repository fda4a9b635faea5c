{
 "claims": [
  {
   "property": "C01",
   "status": "proved",
   "theorems": [
    "C01_negate_is_complement",
    "C01_satisfy_decides",
    "C01_guard_satisfaction_decides"
   ],
   "note": "exact for every inequality and rational value"
  },
  {
   "property": "C02",
   "status": "proved",
   "theorems": [
    "C02_isWeaker_sound",
    "C02_isWeaker_complete"
   ],
   "note": "sound, and complete on satisfiable guards"
  },
  {
   "property": "C03",
   "status": "proved",
   "theorems": [
    "C03_satisfiable_exact"
   ],
   "note": "exact"
  },
  {
   "property": "C04",
   "status": "proved",
   "theorems": [
    "C04_simplify_same_meaning",
    "C04_simplify_non_redundant"
   ],
   "note": "same meaning, and no redundant constraint left"
  },
  {
   "property": "C05",
   "status": "proved",
   "theorems": [
    "C05_negation_of_guards_is_complement",
    "C05_empty_guard_refuted"
   ],
   "note": "the listed statement (lists of non-empty guards) is proved in full; beyond it, C05_empty_guard_refuted shows that a list containing the empty (true) guard is mishandled by the code"
  },
  {
   "property": "C06",
   "status": "proved",
   "theorems": [
    "C06_union_hull_implied_by_each",
    "C06_union_hull_strongest"
   ],
   "note": "implied by each guard; strongest such bound per clock"
  },
  {
   "property": "C07",
   "status": "partial",
   "theorems": [
    "C07_merge_exact_partial",
    "C07_two_clocks_refuted",
    "C07_unbounded_refuted"
   ],
   "note": "exact when the guards agree on all clocks but one and bound the same clocks; refuted with two differing clocks and with one-sided unboundedness"
  },
  {
   "property": "C08",
   "status": "proved",
   "theorems": [
    "C08_deterministic_exact"
   ],
   "note": "exact"
  },
  {
   "property": "C09",
   "status": "proved",
   "theorems": [
    "C09_canonize_same_set",
    "C09_canonize_closed",
    "C09_canonize_tight"
   ],
   "note": "same set, closed, tight"
  },
  {
   "property": "C10",
   "status": "proved",
   "theorems": [
    "C10_isSatisfiable_exact",
    "C10_isSatisfiableNoCanonize_exact"
   ],
   "note": "exact"
  },
  {
   "property": "C11",
   "status": "proved",
   "theorems": [
    "C11_tighten_guard_exact",
    "C11_tighten_keeps_canonical",
    "C11_intersection_exact",
    "C11_point_zone_exact",
    "C11_zero_and_top_exact"
   ],
   "note": "guard tightening, intersection, point/zero/top zones are exact and keep canonical form"
  },
  {
   "property": "C12",
   "status": "proved",
   "theorems": [
    "C12_elapse_exact",
    "C12_elapse_keeps_canonical",
    "C12_reverseElapse_exact",
    "C12_elapse_needs_canonical"
   ],
   "note": "exact on canonical zones; a theorem shows that canonicity is needed"
  },
  {
   "property": "C13",
   "status": "proved",
   "theorems": [
    "C13_includes_sound",
    "C13_includes_complete",
    "C13_strictEqual_exact"
   ],
   "note": "sound, complete on canonical zones"
  },
  {
   "property": "C14",
   "status": "proved",
   "theorems": [
    "C14_extrapolate_enlarges",
    "C14_abstractize_enlarges"
   ],
   "note": "extrapolate and abstractize only enlarge"
  },
  {
   "property": "C15",
   "status": "partial",
   "theorems": [
    "C15_zone_resets_exact_partial",
    "C15_zone_resets_canonical",
    "C15_swap_refuted"
   ],
   "note": "exact for race-free reset lists; refuted for swapped clocks (zone code renames one after the other, the runner in parallel)"
  },
  {
   "property": "C16",
   "status": "proved",
   "theorems": [
    "C16_juxtapose_exact",
    "C16_juxtapose_common_exact",
    "C16_addRenaming_exact",
    "C16_addRenaming_keeps_canonical",
    "C16_getRight_exact",
    "C16_right_after_renaming_exact",
    "C16_makeRenaming_exact"
   ],
   "note": "juxtaposition with and without common clocks, renaming, right projection"
  },
  {
   "property": "C17",
   "status": "proved",
   "theorems": [
    "C17_concat_timeline",
    "C17_timeline_determines",
    "C17_concat_associative",
    "C17_concat_unit",
    "C17_concat_congruent",
    "C17_concat_action_duration",
    "C17_getSuffix_undoes_concat",
    "C17_getSuffix_restores",
    "C17_accumulated",
    "C17_equality_exact"
   ],
   "note": "durations are exact rationals (double in the code)"
  },
  {
   "property": "C18",
   "status": "partial",
   "theorems": [
    "C18_constructor_absorbs",
    "C18_constructor_keeps_observable",
    "C18_operations_keep_observable",
    "C18_append_action_refuted"
   ],
   "note": "constructor, concatenation, suffix: absorbed for every word; operator+(char) does not absorb, shown by the _refuted theorem"
  },
  {
   "property": "C19",
   "status": "proved",
   "theorems": [
    "C19_constructor",
    "C19_order_of_comparisons",
    "C19_successor_is_time_passing",
    "C19_predecessor_is_time_reversed",
    "C19_successor_predecessor_inverse",
    "C19_extend_remove",
    "C19_equality_exact"
   ],
   "note": "Constructor, successor, predecessor (mutually inverse), extend/remove, equality, all for arbitrary vectors of fractional parts."
  },
  {
   "property": "C20",
   "status": "proved",
   "theorems": [
    "C20_constructor_region",
    "C20_makeExact",
    "C20_isSimple_exact",
    "C20_restrict",
    "C20_empty"
   ],
   "note": "The constructor, makeExact, empty, isSimple and the two restrict functions (without force) are exact; region equivalence is defined by floors of all T_ij."
  },
  {
   "property": "C21",
   "status": "proved",
   "theorems": [
    "C21_condition_concat",
    "C21_concat_exact",
    "C21_concat_wellformed",
    "C21_contains_exact",
    "C21_contains_concat",
    "C21_constrain_exact"
   ],
   "note": "Exact for conditions and elementary languages; also contains and constrain."
  },
  {
   "property": "C22",
   "status": "proved",
   "theorems": [
    "C22_enumerate_conditions",
    "C22_enumerate_partition"
   ],
   "note": "Simple, covering, pairwise disjoint; also for the elementary languages. Bounds must be integer and finite, as in every call of the learner."
  },
  {
   "property": "C23",
   "status": "partial",
   "theorems": [
    "C23_makeComplete_keeps_language",
    "C23_makeComplete_wellformed",
    "C23_makeComplete_total",
    "C23_makeComplete_deterministic_partial",
    "C23_makeComplete_stays_deterministic_refuted",
    "C23_total_with_unobservable_refuted"
   ],
   "note": "language unchanged and total for every automaton without unobservable transitions; one successor per letter; refuted: deterministic() can become false (added sink guards overlap), and a state with an unobservable transition is not completed"
  },
  {
   "property": "C24",
   "status": "proved",
   "theorems": [
    "C24_complement_exact",
    "C24_complement_exact_checked"
   ],
   "note": "exact"
  },
  {
   "property": "C25",
   "status": "proved",
   "theorems": [
    "C25_product_exact",
    "C25_product_wellformed",
    "C25_product_clocks",
    "C25_product_without_clock_bound_refuted"
   ],
   "note": "exact for words of observable events when the clocks of the first operand lie within its maximum table (a theorem shows the condition is needed). Clock numbers are unbounded naturals in the model (uint8_t in the code)."
  },
  {
   "property": "C26",
   "status": "proved",
   "theorems": [
    "C26_simplifyTransitions",
    "C26_removeTriviallyUnreachableStates",
    "C26_removeTriviallyDeadStates",
    "C26_removeDeadLoop",
    "C26_removeUselessTransitions",
    "C26_removeUnusedClockVariables",
    "C26_removeUnusedClockVariables_compact",
    "C26_removeUnusedClockVariables_max",
    "C26_simplify",
    "C26_simplifyStrong"
   ],
   "note": "exact; unreachable and dead states: exactly those are removed"
  },
  {
   "property": "C27",
   "status": "proved",
   "theorems": [
    "C27_runner_exact",
    "C27_runner_independent_of_past",
    "C27_runner_stuck_rejects"
   ],
   "note": "exact, independent of earlier runs, stuck stays rejecting"
  },
  {
   "property": "C28",
   "status": "partial",
   "theorems": [
    "C28_applyReset_is_parallel_assignment",
    "C28_composition_is_function_composition",
    "C28_addDefault",
    "C28_clean_same_effect_partial",
    "C28_clean_removes_trivial",
    "C28_clean_duplicates_refuted"
   ],
   "note": "composition and addDefault exact; clean exact for distinct targets, refuted with duplicated targets"
  },
  {
   "property": "C29",
   "status": "proved",
   "theorems": [
    "C29_cache_transparent",
    "C29_cache_asks_once",
    "C29_cache_consistent",
    "C29_cached_automaton"
   ],
   "note": "generic in the wrapped oracle; instantiated with the runner of a deterministic automaton without unobservable transitions"
  },
  {
   "property": "C30",
   "status": "proved",
   "theorems": [
    "C30_byTest_exact",
    "C30_byTest_language",
    "C30_random_exact"
   ],
   "note": "by-test and random-test oracles; in terms of runner answers for all automata, in terms of acceptance for automata where the runner is exact (C27)"
  },
  {
   "property": "C31",
   "status": "proved",
   "theorems": [
    "C31_memo_history",
    "C31_memo_next",
    "C31_memo_no_second_ask",
    "C31_chain",
    "C31_chain_sound"
   ],
   "note": "generic in the wrapped oracles and in the history"
  },
  {
   "property": "C32",
   "status": "proved",
   "theorems": [
    "C32_learner_returns_accepted",
    "C32_learner_correct",
    "C32_learner_with_memo"
   ],
   "note": "the observation table and simplifyWithZones are arbitrary parameters, so the result holds for the code's ones; termination is not claimed"
  },
  {
   "property": "C33",
   "status": "proved",
   "theorems": [
    "C33_history",
    "C33_automaton",
    "C33_reduce_exact"
   ],
   "note": "Any interleaving of symbolic and plain queries, over any membership oracle whose answers are region-invariant, and instantiated to the cached runner of a deterministic automaton with integer constants; reduce is shown to terminate and to keep the union."
  },
  {
   "property": "C36",
   "status": "partial",
   "theorems": [
    "C36_sample_in_zone_partial",
    "C36_sample_in_relatively_open_zone",
    "C36_equations_and_strict_inequalities_relatively_open",
    "C36_sample_refuted"
   ],
   "note": "member of every relatively open zone (in particular regions) and of zones where no inclusive lower bound meets a strict difference bound; refuted beyond that"
  },
  {
   "property": "C37",
   "status": "partial",
   "theorems": [
    "C37_revert_resets_is_preimage_partial",
    "C37_revert_constant_resets_frees",
    "C37_renaming_refuted"
   ],
   "note": "exact for constant resets; refuted for renamings"
  },
  {
   "property": "C38",
   "status": "partial",
   "theorems": [
    "C38_set_addRenaming_exact",
    "C38_set_equality_sound_partial",
    "C38_set_equality_refuted"
   ],
   "note": "addRenaming exact; operator== sound without duplicates, refuted (not symmetric) with duplicates"
  },
  {
   "property": "C39",
   "status": "partial",
   "theorems": [
    "C39_runner_unobservable_sound_partial",
    "C39_runner_violates_guard_refuted",
    "C39_runner_misses_run_refuted"
   ],
   "note": "sound when unobservable guards have inclusive lower bounds only; two refutations (guard violated; run missed)"
  },
  {
   "property": "C40",
   "status": "partial",
   "theorems": [
    "C40_mergeAdjacentTransitions_superset",
    "C40_mergeAdjacentTransitions_exact_partial",
    "C40_mergeAdjacentTransitions_exact_refuted",
    "C40_removeTransitionsWithWeakerGuards_partial",
    "C40_removeTransitionsWithWeakerGuards_refuted"
   ],
   "note": "merging never loses words and is exact on bounded one-clock guards; refuted in general (unbounded guard); pruning exact when resets agree, refuted otherwise"
  },
  {
   "property": "C41",
   "status": "proved",
   "theorems": [
    "C41_sample_contained",
    "C41_sample_represents"
   ],
   "note": "Bounded conditions (the code uses DBL_MAX otherwise); visible actions only because the TimedWord constructor drops unobservable ones."
  },
  {
   "property": "C42",
   "status": "proved",
   "theorems": [
    "C42_equality_exact",
    "C42_intersection",
    "C42_includes_sound",
    "C42_convexHull",
    "C42_removeUpperBound",
    "C42_toGuard",
    "C42_toGuard_exact",
    "C42_applyResets",
    "C42_removeEqualityUpperBound"
   ],
   "note": "includes: soundness only here; completeness needs the diagonal (C15)."
  },
  {
   "property": "C43",
   "status": "proved",
   "theorems": [
    "C43_fromTimedWord",
    "C43_default",
    "C43_members",
    "C43_successor_continuous",
    "C43_successor_discrete",
    "C43_successors_cover_all_delays",
    "C43_immediatePrefix",
    "C43_prefixes",
    "C43_extensions"
   ],
   "note": "For every word and delay; prefixes() shown to terminate with the exact list. Only the learner's unbounded integers are assumed (no overflow)."
  },
  {
   "property": "C44",
   "status": "partial",
   "theorems": [
    "C44_default",
    "C44_predecessor_discrete",
    "C44_predecessor_continuous",
    "C44_members",
    "C44_fromTimedWord_documented",
    "C44_immediateSuffix_continuous_partial",
    "C44_predecessor_of_fromTimedWord_refuted"
   ],
   "note": "Proved for languages built from the default constructor; refuted for predecessor() of fromTimedWord (the constructed order is the one of T_{0,i}, predecessor() needs the one of -T_{0,i}); the discrete case of immediateSuffix is marked TODO in the code and not claimed."
  },
  {
   "property": "C45",
   "status": "proved",
   "theorems": [
    "C45_acceptance_region_invariant"
   ],
   "note": "For automata without unobservable transitions."
  },
  {
   "property": "C34",
   "status": "proved",
   "theorems": [
    "C34_analysis",
    "C34_finds_a_breaking_suffix",
    "C34_termination_refuted"
   ],
   "note": "result of the analysis proved for every hypothesis and oracle when contains() answers; beyond the listed statement, termination of the common loop is refuted by a proper hypothesis (each round samples an inner point, Zeno)"
  },
  {
   "property": "C46",
   "status": "proved",
   "theorems": [
    "C46_maps",
    "C46_split",
    "C46_split_succeeds",
    "C46_contains",
    "C46_contains_fuel_irrelevant"
   ],
   "note": "maps, split and contains; regions for the success of split"
  },
  {
   "property": "C35",
   "status": "proved",
   "theorems": [
    "C35_full_mode_runs_to_the_end",
    "C35_every_run_is_covered",
    "C35_every_reached_configuration_is_covered",
    "C35_accepted_words_have_accepting_paths",
    "C35_no_accepting_state_means_empty",
    "C35_edges_are_transitions",
    "C35_zones_are_successors",
    "C35_needs_race_free_resets"
   ],
   "note": "coverage of all runs and precision of each edge and zone, for any order of the hash table; resets must be race free (necessity shown)"
  },
  {
   "property": "C47",
   "status": "proved",
   "theorems": [
    "C47_construction_terminates",
    "C47_finite_zone_automaton_exists"
   ],
   "note": "Well-quasi-order argument: extrapolated zones lie on a grid and are bounded above, so any sequence of zones without a later one included in an earlier one is finite (Dickson's lemma via almost-full relations)."
  },
  {
   "property": "C48",
   "status": "proved",
   "theorems": [
    "C48_sampled_words_are_accepted",
    "C48_empty_language_yields_no_word",
    "C48_validated_words_are_accepted",
    "C48_needs_reads_kept"
   ],
   "note": "For transitions that do not assign a clock twice and whose renamings do not read an assigned clock; a clock renamed to itself already breaks it (C48_needs_reads_kept: both modes return a word that is not accepted). The proof goes through closures of zones: sampled points are only in the closure, yet every returned word is genuine."
  },
  {
   "property": "C49",
   "status": "partial",
   "theorems": [
    "C49_no_word_means_empty_refuted"
   ],
   "note": "Refuted: a three-clock automaton with integer constants accepts a word, but no word is sampled in either mode because Zone::sample picks a point from which the run cannot be rebuilt; the equivalence oracle would answer 'equivalent'. The true part (no accepting zone state means empty) is C35."
  },
  {
   "property": "C50",
   "status": "proved",
   "theorems": [
    "C50_counterexamples_are_genuine",
    "C50_a_right_hypothesis_is_never_rejected",
    "C50_queries_terminate",
    "C50_computed_complement"
   ],
   "note": "Composition of product, complement, simplifyStrong, simplify, addUpperBoundForUnobservableTransitions (which only removes runs), ta2za and sampling; plus termination for every automaton. C50_computed_complement: the complement may be the one the library computes."
  },
  {
   "property": "C51",
   "status": "partial",
   "theorems": [
    "C51_no_counterexample_means_equivalent_refuted"
   ],
   "note": "False of the code: exMiss (3 clocks, constants 0 and 1) with a nonempty language is declared equivalent to the empty hypothesis, because sampling a zone can give a point outside of it and the run through it cannot be rebuilt. C51 is stated by its refutation; C35 and C47 give the part that does hold (no accepting zone means empty language)."
  },
  {
   "property": "C52",
   "status": "proved",
   "theorems": [
    "C52_equivalence_sound",
    "C52_equivalence_stored_sound",
    "C52_distinguishing_suffix_detected"
   ],
   "note": "equivalence(), both overloads used by the table, against rows characterised as the symbolic oracle's answers (C33 shows the oracle gives such rows)."
  },
  {
   "property": "C53",
   "status": "proved",
   "theorems": [
    "C53_renaming_found_sound",
    "C53_renaming_found_stored_sound",
    "C53_renaming_total_on_regions",
    "C53_morphism_of_renaming_found"
   ],
   "note": "findDeterministicEquivalentRenaming, both overloads."
  },
  {
   "property": "C54",
   "status": "proved",
   "theorems": [
    "C54_graph_exact",
    "C54_candidates",
    "C54_candidates_exact",
    "C54_back_is_defined"
   ],
   "note": "toGraph exact; candidates sound; no claim that all deterministic renamings are candidates (they are not)."
  },
  {
   "property": "C55",
   "status": "proved",
   "theorems": [
    "C55_valuation_in_region",
    "C55_reset_reaches_related_word",
    "C55_reset_of_renaming_found"
   ],
   "note": "toReset and toValuation; transitions are taken as the simultaneous assignment the runner performs."
  },
  {
   "property": "C56",
   "status": "proved",
   "theorems": [
    "C56_cells_exact",
    "C56_only_nonempty_languages_asked",
    "C56_rows_decide_membership"
   ],
   "note": "Table histories of arbitrary length over an arbitrary membership oracle. After a counterexample the hypothesis that every question asked has a word is a real one: predecessors of a counterexample suffix can be empty (C44_predecessor_of_fromTimedWord_refuted)."
  },
  {
   "property": "C57",
   "status": "proved",
   "theorems": [
    "C57_prefix_tree"
   ],
   "note": "Same hypotheses as C56."
  },
  {
   "property": "C58",
   "status": "proved",
   "theorems": [
    "C58_closed",
    "C58_not_closed_makes_progress"
   ],
   "note": "Both answers of close(); the target is the one generateHypothesis reads (first recorded relation whose target is in P)."
  },
  {
   "property": "C59",
   "status": "proved",
   "theorems": [
    "C59_consistent",
    "C59_inconsistency_makes_progress"
   ],
   "note": "Both answers of consistent(). Rows already recorded as distinguished count as different, as in the code."
  },
  {
   "property": "C60",
   "status": "proved",
   "theorems": [
    "C60_refined",
    "C60_exterior",
    "C60_saturated"
   ],
   "note": "Refinement loop of learner.hh and the two other checks."
  },
  {
   "property": "C61",
   "status": "proved",
   "theorems": [
    "C61_recognizable_language"
   ],
   "note": "The described language is compared with the target through C34's notions."
  },
  {
   "property": "C62",
   "status": "proved",
   "theorems": [
    "C62_counterexample_makes_progress",
    "C62_genuine_counterexample_never_rejected"
   ],
   "note": "Uses C34 for the analysis; termination of the analysis is not claimed (C34_termination_refuted), so running out of steps stays possible."
  },
  {
   "property": "C63",
   "status": "proved",
   "theorems": [
    "C63_no_exception",
    "C63_constructor_no_exception"
   ],
   "note": "Exceptions, oracle refusals and abort are separate results of the model; running out of fuel stands for non-termination."
  },
  {
   "property": "C64",
   "status": "proved",
   "theorems": [
    "C64_learned"
   ],
   "note": "Hypothesis generation and the equivalence oracle are parameters here (generateHypothesis itself is not modelled in this theorem)."
  },
  {
   "property": "C65",
   "status": "proved",
   "theorems": [
    "C65_hypothesis_built",
    "C65_learner_hypothesis"
   ],
   "note": "Hypotheses: delayInvariant f (otherwise the code calls abort()), smallRows (times in rows below INT_MAX-1), NoDup alphabet (duplicates make the code abort), askedNonempty (proved to hold before the first counterexample, C56). ImpreciseClockHandler::run, splitStates and the unobservable branch are arbitrary parameters that are proved to have no effect on such tables."
  },
  {
   "property": "C66",
   "status": "proved",
   "theorems": [
    "C66_right_on_rows"
   ],
   "note": "Same hypotheses as C65; the rows are those of P and of the border."
  },
  {
   "property": "C67",
   "status": "proved",
   "theorems": [
    "C67_agrees_with_target_automaton"
   ],
   "note": "C66 instantiated with the runner behind the cache; delayInvariant and region invariance of the target are proved, not assumed."
  },
  {
   "property": "C68",
   "status": "proved",
   "theorems": [
    "C68_terminates",
    "C68_only_removes",
    "C68_same_language",
    "C68_nothing_useless_left",
    "C68_no_unsatisfiable_guard_left",
    "C68_race_loses_words_refuted"
   ],
   "note": "Everything holds as stated; the condition on renamings is necessary: C68_race_loses_words_refuted exhibits a deterministic automaton from which the simplification removes an accepted word."
  },
  {
   "property": "C69",
   "status": "proved",
   "theorems": [
    "C69_submitted",
    "C69_same_language",
    "C69_agrees_with_target_automaton",
    "C69_learned"
   ],
   "note": "The same-language part is under raceFreeTA of the hypothesis (no renaming reads a clock changed by an earlier renaming of the transition); see C68. C69_learned is for an equivalence oracle that is right; the project's own one is C50/C51."
  },
  {
   "property": "C70",
   "status": "partial",
   "theorems": [
    "C70_genuine_counterexamples_never_throw_refuted"
   ],
   "note": "The property is false of the code; C70_..._refuted proves the negation with an honest equivalence oracle (genuine: proved for every automaton it is asked about). In the last round the hypothesis read off the table accepts a word of the target that the automaton left by simplifyWithZones rejects (its renamings x1:=x0, x2:=x1 race, zone.hh:132-151 applies them one after the other); the analysis of that genuine counterexample reaches the throw of counterexample_analyzer.hh:55. relax/split (imprecise clocks, state splitting) are the identity in the witness; by C65-C67 the hypothesis of a refined table does not depend on them. The computation of the four rounds is done by the kernel (VM cast)."
  },
  {
   "property": "C71",
   "status": "proved",
   "theorems": [
    "C71_hypothesis_agrees_with_recognizable_language",
    "C71_wrong_word_never_throws",
    "C71_settled_table_uses_targets"
   ],
   "note": "Full statement for all words with an answer of contains. The premise usesTargets says that the morphisms are those of the hypothesis; C71_settled_table_uses_targets gives a condition read off the table. It cannot be dropped: equivalentWithMemo consults the (asymmetric) memo of distinguished pairs, generateHypothesis does not."
  },
  {
   "property": "C72",
   "status": "proved",
   "theorems": [
    "C72_make_neighbors",
    "C72_constructor",
    "C72_reconstruct",
    "C72_nothing_to_relax"
   ],
   "note": "NeighborModel. C72_make_neighbors: before time passes; C72_constructor: result of the constructor; C72_nothing_to_relax. Regions are described through a word w (regionalF). Assumes no unobservable letter (as the C++ words do)."
  },
  {
   "property": "C73",
   "status": "proved",
   "theorems": [
    "C73_continuous_successor",
    "C73_no_precise_clock_never_returns",
    "C73_discrete_successor"
   ],
   "note": "Hypothesis: at least one precise clock (C73_no_precise_clock_never_returns shows the loop is infinite otherwise). describes is an invariant kept by the constructor (C72) and both successors."
  },
  {
   "property": "C74",
   "status": "proved",
   "theorems": [
    "C74_match",
    "C74_relaxed_guard_covers",
    "C74_relaxed_guard_tight",
    "C74_relaxed_guard_precise",
    "C74_precise",
    "C74_relaxed_transition"
   ],
   "note": "Guards over nonnegative valuations; match completeness needs guards without trivially true constraints (C02)."
  },
  {
   "property": "C75",
   "status": "proved",
   "theorems": [
    "C75_precise_after_reset",
    "C75_precise_after_reset_maximal",
    "C75_embed_if_imprecise",
    "C75_clock_size",
    "C75_imprecise_clocks"
   ],
   "note": "Resets without a repeated clock. Fractional constants are known values but not called precise by the code."
  },
  {
   "property": "C76",
   "status": "proved",
   "theorems": [
    "C76_apply_resets_exact",
    "C76_no_valuation_is_lost",
    "C76_keeps_integer_and_finite_bounds",
    "C76_constants_one_region",
    "C76_order_is_not_checked"
   ],
   "note": "Doubles are rationals. The order of the values is not checked by the code (C76_order_is_not_checked)."
  },
  {
   "property": "C77",
   "status": "proved",
   "theorems": [
    "C77_regional_resets",
    "C77_integer_resets_exact",
    "C77_fractions_split_a_region"
   ],
   "note": "Needs the sources of the assignments to exist and distinct targets (resetsInto), which the code only asserts in part."
  },
  {
   "property": "C78",
   "status": "proved",
   "theorems": [
    "C78_after_transition",
    "C78_internal_agrees",
    "C78_needs_a_letter_and_a_clock"
   ],
   "note": "Needs a non-empty word and a target with a clock, which the code does not check (C78_needs_a_letter_and_a_clock)."
  },
  {
   "property": "C79",
   "status": "proved",
   "theorems": [
    "C79_run_only_relaxes",
    "C79_no_word_is_lost",
    "C79_no_new_path",
    "C79_added_transitions",
    "C79_loop_returns",
    "C79_loop_never_returns",
    "C79_queue_has_precise_clocks",
    "C79_loop_relaxes",
    "C79_every_pair_is_explored",
    "C79_what_is_queued",
    "C79_work_list_ends"
   ],
   "note": "run with its work list and do-while loop over time successors. The theorem on the end of the loop is about the number of rounds: the calls inside return for enough fuel by C73 and C78. A relaxed guard that is not comparable with the matched guard is not added, so some neighbours may be left without transition (Example C79_incomparable_guard_is_not_relaxed). For tables the learner produces the work list is empty (C65). The end of the work list is proved for any bound on hash values (size_t in the code), up to calls inside that do not return."
  },
  {
   "property": "C80",
   "status": "proved",
   "theorems": [
    "C80_no_valuation_is_lost",
    "C80_origin",
    "C80_unchanged_iff_deterministic",
    "C80_classes_become_deterministic",
    "C80_no_precise_clocks",
    "C80_same_target",
    "C80_choice",
    "C80_choice_with_precise_clocks",
    "C80_same_target_choice"
   ],
   "note": "One pass does not make every state deterministic (Example C80_one_pass_is_not_enough), the overload with precise clocks may lose valuations (Example C80_precise_clocks_lose), and mergeTransitions compares vectors of imprecise clocks lexicographically, not their sizes, so it may prefer the transition with more of them (Example C80_more_imprecise_clocks_are_preferred)."
  },
  {
   "property": "C81",
   "status": "proved",
   "theorems": [
    "C81_suffix",
    "C81_suffixes_of_a_word"
   ],
   "note": "The function is called in the repository only by renameConsistent's and analyzeCEX's unreachable parts; it is public. The inclusion may be strict (Example C81_suffix_may_have_more), and predecessor() does not follow the order of the result, as for fromTimedWord (C44; Example C81_predecessor_of_a_suffix)."
  },
  {
   "property": "C82",
   "status": "proved",
   "theorems": [
    "C82_returns",
    "C82_what_is_made",
    "C82_deterministic"
   ],
   "note": "the preference between overlapping transitions and the iteration order of unordered_set are parameters; returning is characterised exactly (C82_returns), the initial state not being merged is shown by an example"
  },
  {
   "property": "C83",
   "status": "proved",
   "theorems": [
    "C83_found_sound",
    "C83_nothing_found",
    "C83_search_ends",
    "C83_candidates_made"
   ],
   "note": "no caller in the repository; std::lower_bound is a parameter: C83_nothing_found assumes only that a greatest pair goes to the end, C83_search_ends that it is exact on sorted candidates (addImplicitConstraints sorts by the right component, so a candidate may not be sorted; what happens then is not covered)"
  }
 ]
}