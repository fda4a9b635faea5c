{
"C01":{"note": "exact for every inequality and rational value"},
"C02":{"note": "sound, and complete on satisfiable guards"},
"C03":{"note": "exact"},
"C04":{"note": "same meaning, and no redundant constraint left"},
"C05":{"note": "the listed statement (lists of non-empty guards) is proved in full; beyond it, C05_empty_guard_refuted shows that a list containing the empty (true) guard is mishandled by the code", "status": "proved"},
"C06":{"note": "implied by each guard; strongest such bound per clock"},
"C07":{"note": "exact when the guards agree on all clocks but one and bound the same clocks; refuted with two differing clocks and with one-sided unboundedness"},
"C08":{"note": "exact"},
"C09":{"note": "same set, closed, tight"},
"C10":{"note": "exact"},
"C11":{"note": "guard tightening, intersection, point/zero/top zones are exact and keep canonical form"},
"C12":{"note": "exact on canonical zones; a theorem shows that canonicity is needed"},
"C13":{"note": "sound, complete on canonical zones"},
"C14":{"note": "extrapolate and abstractize only enlarge"},
"C15":{"note": "exact for race-free reset lists; refuted for swapped clocks (zone code renames one after the other, the runner in parallel)"},
"C16":{"note": "juxtaposition with and without common clocks, renaming, right projection"},
"C17":{"note": "durations are exact rationals (double in the code)"},
"C18":{"note": "constructor, concatenation, suffix: absorbed for every word; operator+(char) does not absorb, shown by the _refuted theorem"},
"C19":{"note": "Constructor, successor, predecessor (mutually inverse), extend/remove, equality, all for arbitrary vectors of fractional parts."},
"C20":{"note": "The constructor, makeExact, empty, isSimple and the two restrict functions (without force) are exact; region equivalence is defined by floors of all T_ij."},
"C21":{"note": "Exact for conditions and elementary languages; also contains and constrain."},
"C22":{"note": "Simple, covering, pairwise disjoint; also for the elementary languages. Bounds must be integer and finite, as in every call of the learner."},
"C23":{"note": "language unchanged and total for every automaton without unobservable transitions; one successor per letter; refuted: deterministic() can become false (added sink guards overlap), and a state with an unobservable transition is not completed"},
"C24":{"note": "exact"},
"C25":{"note": "exact for words of observable events when the clocks of the first operand lie within its maximum table (a theorem shows the condition is needed). Clock numbers are unbounded naturals in the model (uint8_t in the code).", "status": "proved"},
"C26":{"note": "exact; unreachable and dead states: exactly those are removed"},
"C27":{"note": "exact, independent of earlier runs, stuck stays rejecting"},
"C28":{"note": "composition and addDefault exact; clean exact for distinct targets, refuted with duplicated targets"},
"C29":{"note": "generic in the wrapped oracle; instantiated with the runner of a deterministic automaton without unobservable transitions"},
"C30":{"note": "by-test and random-test oracles; in terms of runner answers for all automata, in terms of acceptance for automata where the runner is exact (C27)"},
"C31":{"note": "generic in the wrapped oracles and in the history"},
"C32":{"note": "the observation table and simplifyWithZones are arbitrary parameters, so the result holds for the code's ones; termination is not claimed"},
"C33":{"note": "Any interleaving of symbolic and plain queries, over any membership oracle whose answers are region-invariant, and instantiated to the cached runner of a deterministic automaton with integer constants; reduce is shown to terminate and to keep the union."},
"C34":{"note": "result of the analysis proved for every hypothesis and oracle when contains() answers; beyond the listed statement, termination of the common loop is refuted by a proper hypothesis (each round samples an inner point, Zeno)", "status": "proved"},
"C35":{"note": "coverage of all runs and precision of each edge and zone, for any order of the hash table; resets must be race free (necessity shown)"},
"C36":{"note": "member of every relatively open zone (in particular regions) and of zones where no inclusive lower bound meets a strict difference bound; refuted beyond that"},
"C37":{"note": "exact for constant resets; refuted for renamings"},
"C38":{"note": "addRenaming exact; operator== sound without duplicates, refuted (not symmetric) with duplicates"},
"C39":{"note": "sound when unobservable guards have inclusive lower bounds only; two refutations (guard violated; run missed)"},
"C40":{"note": "merging never loses words and is exact on bounded one-clock guards; refuted in general (unbounded guard); pruning exact when resets agree, refuted otherwise"},
"C41":{"note": "Bounded conditions (the code uses DBL_MAX otherwise); visible actions only because the TimedWord constructor drops unobservable ones."},
"C42":{"note": "includes: soundness only here; completeness needs the diagonal (C15)."},
"C43":{"note": "For every word and delay; prefixes() shown to terminate with the exact list. Only the learner's unbounded integers are assumed (no overflow)."},
"C44":{"note": "Proved for languages built from the default constructor; refuted for predecessor() of fromTimedWord (the constructed order is the one of T_{0,i}, predecessor() needs the one of -T_{0,i}); the discrete case of immediateSuffix is marked TODO in the code and not claimed."},
"C45":{"note": "For automata without unobservable transitions."},
"C46":{"note": "maps, split and contains; regions for the success of split"},
"C47":{"note": "Well-quasi-order argument: extrapolated zones lie on a grid and are bounded above, so any sequence of zones without a later one included in an earlier one is finite (Dickson's lemma via almost-full relations)."},
"C48":{"note": "For transitions that do not assign a clock twice and whose renamings do not read an assigned clock; a clock renamed to itself already breaks it (C48_needs_reads_kept: both modes return a word that is not accepted). The proof goes through closures of zones: sampled points are only in the closure, yet every returned word is genuine."},
"C49":{"note": "Refuted: a three-clock automaton with integer constants accepts a word, but no word is sampled in either mode because Zone::sample picks a point from which the run cannot be rebuilt; the equivalence oracle would answer 'equivalent'. The true part (no accepting zone state means empty) is C35.", "status": "partial"},
"C50":{"note": "Composition of product, complement, simplifyStrong, simplify, addUpperBoundForUnobservableTransitions (which only removes runs), ta2za and sampling; plus termination for every automaton. C50_computed_complement: the complement may be the one the library computes."},
"C51":{"note": "False of the code: exMiss (3 clocks, constants 0 and 1) with a nonempty language is declared equivalent to the empty hypothesis, because sampling a zone can give a point outside of it and the run through it cannot be rebuilt. C51 is stated by its refutation; C35 and C47 give the part that does hold (no accepting zone means empty language).", "status": "partial"},
"C52":{"note": "equivalence(), both overloads used by the table, against rows characterised as the symbolic oracle's answers (C33 shows the oracle gives such rows)."},
"C53":{"note": "findDeterministicEquivalentRenaming, both overloads."},
"C54":{"note": "toGraph exact; candidates sound; no claim that all deterministic renamings are candidates (they are not)."},
"C55":{"note": "toReset and toValuation; transitions are taken as the simultaneous assignment the runner performs."},
"C56":{"note": "Table histories of arbitrary length over an arbitrary membership oracle. After a counterexample the hypothesis that every question asked has a word is a real one: predecessors of a counterexample suffix can be empty (C44_predecessor_of_fromTimedWord_refuted)."},
"C57":{"note": "Same hypotheses as C56."},
"C58":{"note": "Both answers of close(); the target is the one generateHypothesis reads (first recorded relation whose target is in P)."},
"C59":{"note": "Both answers of consistent(). Rows already recorded as distinguished count as different, as in the code."},
"C60":{"note": "Refinement loop of learner.hh and the two other checks."},
"C61":{"note": "The described language is compared with the target through C34's notions."},
"C62":{"note": "Uses C34 for the analysis; termination of the analysis is not claimed (C34_termination_refuted), so running out of steps stays possible."},
"C63":{"note": "Exceptions, oracle refusals and abort are separate results of the model; running out of fuel stands for non-termination."},
"C64":{"note": "Hypothesis generation and the equivalence oracle are parameters here (generateHypothesis itself is not modelled in this theorem)."},
"C65":{"note": "Hypotheses: delayInvariant f (otherwise the code calls abort()), smallRows (times in rows below INT_MAX-1), NoDup alphabet (duplicates make the code abort), askedNonempty (proved to hold before the first counterexample, C56). ImpreciseClockHandler::run, splitStates and the unobservable branch are arbitrary parameters that are proved to have no effect on such tables."},
"C66":{"note": "Same hypotheses as C65; the rows are those of P and of the border."},
"C67":{"note": "C66 instantiated with the runner behind the cache; delayInvariant and region invariance of the target are proved, not assumed."},
"C68":{"note": "Everything holds as stated; the condition on renamings is necessary: C68_race_loses_words_refuted exhibits a deterministic automaton from which the simplification removes an accepted word.", "status": "proved"},
"C69":{"note": "The same-language part is under raceFreeTA of the hypothesis (no renaming reads a clock changed by an earlier renaming of the transition); see C68. C69_learned is for an equivalence oracle that is right; the project's own one is C50/C51."},
"C70":{"note": "The property is false of the code; C70_..._refuted proves the negation with an honest equivalence oracle (genuine: proved for every automaton it is asked about). In the last round the hypothesis read off the table accepts a word of the target that the automaton left by simplifyWithZones rejects (its renamings x1:=x0, x2:=x1 race, zone.hh:132-151 applies them one after the other); the analysis of that genuine counterexample reaches the throw of counterexample_analyzer.hh:55. relax/split (imprecise clocks, state splitting) are the identity in the witness; by C65-C67 the hypothesis of a refined table does not depend on them. The computation of the four rounds is done by the kernel (VM cast)."},
"C71":{"note": "Full statement for all words with an answer of contains. The premise usesTargets says that the morphisms are those of the hypothesis; C71_settled_table_uses_targets gives a condition read off the table. It cannot be dropped: equivalentWithMemo consults the (asymmetric) memo of distinguished pairs, generateHypothesis does not."},
"C72":{"note": "NeighborModel. C72_make_neighbors: before time passes; C72_constructor: result of the constructor; C72_nothing_to_relax. Regions are described through a word w (regionalF). Assumes no unobservable letter (as the C++ words do)."},
"C73":{"note": "Hypothesis: at least one precise clock (C73_no_precise_clock_never_returns shows the loop is infinite otherwise). describes is an invariant kept by the constructor (C72) and both successors."},
"C74":{"note": "Guards over nonnegative valuations; match completeness needs guards without trivially true constraints (C02)."},
"C75":{"note": "Resets without a repeated clock. Fractional constants are known values but not called precise by the code."},
"C76":{"note": "Doubles are rationals. The order of the values is not checked by the code (C76_order_is_not_checked)."},
"C77":{"note": "Needs the sources of the assignments to exist and distinct targets (resetsInto), which the code only asserts in part."},
"C78":{"note": "Needs a non-empty word and a target with a clock, which the code does not check (C78_needs_a_letter_and_a_clock)."},
"C79":{"note": "run with its work list and do-while loop over time successors. The theorem on the end of the loop is about the number of rounds: the calls inside return for enough fuel by C73 and C78. A relaxed guard that is not comparable with the matched guard is not added, so some neighbours may be left without transition (Example C79_incomparable_guard_is_not_relaxed). For tables the learner produces the work list is empty (C65). The end of the work list is proved for any bound on hash values (size_t in the code), up to calls inside that do not return."},
"C80":{"note": "One pass does not make every state deterministic (Example C80_one_pass_is_not_enough), the overload with precise clocks may lose valuations (Example C80_precise_clocks_lose), and mergeTransitions compares vectors of imprecise clocks lexicographically, not their sizes, so it may prefer the transition with more of them (Example C80_more_imprecise_clocks_are_preferred)."},
"C81":{"note": "The function is called in the repository only by renameConsistent's and analyzeCEX's unreachable parts; it is public. The inclusion may be strict (Example C81_suffix_may_have_more), and predecessor() does not follow the order of the result, as for fromTimedWord (C44; Example C81_predecessor_of_a_suffix)."},
"C82":{"note": "the preference between overlapping transitions and the iteration order of unordered_set are parameters; returning is characterised exactly (C82_returns), the initial state not being merged is shown by an example"},
"C83":{"note": "no caller in the repository; std::lower_bound is a parameter: C83_nothing_found assumes only that a greatest pair goes to the end, C83_search_ends that it is exact on sorted candidates (addImplicitConstraints sorts by the right component, so a candidate may not be sorted; what happens then is not covered)"}
}
