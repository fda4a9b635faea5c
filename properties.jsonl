{"id": "C01", "title": "Negating a clock constraint is exact complement", "statement": "For a single inequality over a clock, the value returned by negate() is satisfied by a clock value exactly when the original inequality is not.", "quantifier": "every clock, relation, integer constant and every real (rational) clock value", "why_tests_cant": "Guards and valuations are unbounded in number and size and valuations are dense; a test samples finitely many points.", "anchors": ["include/constraint.hh: Constraint::satisfy, Constraint::negate"]}
{"id": "C02", "title": "Guard weakness check is sound", "statement": "Whenever isWeaker(left, right) answers true, every clock valuation satisfying the guard `right` also satisfies the guard `left`.", "quantifier": "every pair of guards and every valuation", "why_tests_cant": "Guards and valuations are unbounded in number and size and valuations are dense; a test samples finitely many points.", "anchors": ["include/constraint.hh: isWeaker"]}
{"id": "C03", "title": "Guard satisfiability check is exact", "statement": "satisfiable(g) answers true iff some non-negative clock valuation satisfies the guard g.", "quantifier": "every guard (constants below INT_MAX) and every non-negative valuation", "why_tests_cant": "Guards and valuations are unbounded in number and size and valuations are dense; a test samples finitely many points.", "anchors": ["include/constraint.hh: satisfiable, toBounds"]}
{"id": "C04", "title": "Guard simplification preserves meaning", "statement": "simplify(g) is satisfied by exactly the same non-negative valuations as g, and it is free of redundant constraints (at most one lower and one upper bound per clock).", "quantifier": "every guard and every non-negative valuation", "why_tests_cant": "Guards and valuations are unbounded in number and size and valuations are dense; a test samples finitely many points.", "anchors": ["include/constraint.hh: simplify, toBounds"]}
{"id": "C05", "title": "Negating a disjunction of guards is exact complement", "statement": "For a non-empty list of non-empty guards, negate(list) is a list of guards such that a non-negative valuation satisfies one of them iff it satisfies none of the input guards.", "quantifier": "every DNF of guards and every non-negative valuation", "why_tests_cant": "Guards and valuations are unbounded in number and size and valuations are dense; a test samples finitely many points.", "anchors": ["include/constraint.hh: negate(std::vector<std::vector<Constraint>>)"]}
{"id": "C06", "title": "Union hull of guards is the strongest common weakening", "statement": "unionHull(gs) is implied by each guard in gs, and (for non-redundant satisfiable guards) any single-clock bound implied by all of them is implied by it.", "quantifier": "every non-empty list of guards, every valuation, every competing bound", "why_tests_cant": "Guards and valuations are unbounded in number and size and valuations are dense; a test samples finitely many points.", "anchors": ["include/constraint.hh: unionHull"]}
{"id": "C07", "title": "Merging adjacent transitions preserves the enabled valuations", "statement": "When two guards are reported adjacent and merged, the merged guard is satisfied exactly when one of the two was satisfied.", "quantifier": "every pair of guards reported adjacent and every non-negative valuation", "why_tests_cant": "Guards and valuations are unbounded in number and size and valuations are dense; a test samples finitely many points.", "anchors": ["include/constraint.hh: adjacent, unionHull", "include/timed_automaton.hh: TATransition::mergeable, merge"]}
{"id": "C08", "title": "Determinism check is exact", "statement": "A state (and an automaton) is reported deterministic iff no non-negative valuation enables two different transitions with the same label.", "quantifier": "every automaton, every state, every valuation", "why_tests_cant": "Guards and valuations are unbounded in number and size and valuations are dense; a test samples finitely many points.", "anchors": ["src/timed_automaton.cc: TAState::deterministic", "include/timed_automaton.hh: TimedAutomaton::deterministic"]}
{"id": "C09", "title": "Zone canonicalization changes the representation, not the set", "statement": "canonize() never changes the set of valuations a zone denotes, and the result is closed under implied bounds (each entry is the tightest bound) whenever the zone is non-empty.", "quantifier": "every difference-bound matrix of every dimension and every valuation", "why_tests_cant": "Matrices of unbounded dimension with arbitrary rational constants.", "anchors": ["include/zone.hh: close1, canonize"]}
{"id": "C10", "title": "Zone emptiness check is exact", "statement": "isSatisfiable() answers true iff some valuation belongs to the zone.", "quantifier": "every difference-bound matrix of every dimension", "why_tests_cant": "Matrices of unbounded dimension with arbitrary rational constants.", "anchors": ["include/zone.hh: isSatisfiable, isSatisfiableNoCanonize"]}
{"id": "C11", "title": "Zone guard intersection is exact", "statement": "Tightening a zone with a guard yields exactly the valuations of the zone satisfying the guard, and keeps a canonical zone canonical; intersecting two zones yields exactly the common valuations.", "quantifier": "every zone, guard and valuation", "why_tests_cant": "Unbounded dimension and constants.", "anchors": ["include/zone.hh: tighten, operator&&, operator&="]}
{"id": "C12", "title": "Zone time elapse is exact", "statement": "For a canonical non-empty zone of non-negative valuations, elapse() denotes exactly the valuations reachable by letting some duration pass, and reverseElapse() exactly the non-negative valuations from which the zone is reachable by letting time pass.", "quantifier": "every canonical zone, valuation and delay", "why_tests_cant": "Dense time, unbounded dimension.", "anchors": ["include/zone.hh: elapse, reverseElapse"]}
{"id": "C13", "title": "Zone inclusion check is exact on canonical zones", "statement": "includes() answers true only if set inclusion holds; on canonical non-empty zones with zero diagonal it answers true whenever inclusion holds.", "quantifier": "every pair of canonical zones", "why_tests_cant": "Unbounded dimension and constants.", "anchors": ["include/zone.hh: includes, operator=="]}
{"id": "C14", "title": "Extrapolation only enlarges zones", "statement": "extrapolate() and abstractize() return a zone containing every valuation of the original zone.", "quantifier": "every zone, threshold vector and valuation", "why_tests_cant": "Unbounded dimension and constants.", "anchors": ["include/zone.hh: extrapolate, abstractize"]}
{"id": "C15", "title": "Symbolic resets agree with concrete resets", "statement": "Applying a list of resets to a zone yields exactly the valuations obtained by applying the same resets to the valuations of the zone, as the runner does.", "quantifier": "every canonical zone, every reset list, every valuation", "why_tests_cant": "Reset lists mix constants and renamings; order-dependence only shows on particular shapes.", "anchors": ["include/zone.hh: applyResets", "include/timed_automaton_runner.hh: applyReset"]}
{"id": "C16", "title": "Juxtaposition of zones is the product constrained by the renaming", "statement": "The juxtaposition of two zones constrained by a renaming relation denotes exactly the pairs of valuations from the two zones agreeing on the renamed clocks, and the right component extracted from it is exactly the projection.", "quantifier": "every pair of zones, every renaming, every pair of valuations", "why_tests_cant": "Unbounded dimension and constants.", "anchors": ["include/juxtaposed_zone.hh: JuxtaposedZone, addRenaming, getRight"]}
{"id": "C17", "title": "Timed words form a monoid", "statement": "Timed-word concatenation adds the touching durations and concatenates the rest, is associative with the empty word of duration 0 as unit, preserves total duration, and getSuffix undoes it.", "quantifier": "all timed words of all lengths with arbitrary durations", "why_tests_cant": "Unbounded lengths, real durations.", "anchors": ["include/timed_word.hh: TimedWord, operator+, getSuffix, getAccumulatedDurations"]}
{"id": "C18", "title": "Unobservable events are absorbed", "statement": "A timed word never contains an unobservable event: constructing it from a word with unobservable events gives the same observable word with the durations around each of them added.", "quantifier": "all words and durations", "why_tests_cant": "Unbounded lengths and positions.", "anchors": ["include/timed_word.hh: TimedWord::TimedWord, operator+"]}
{"id": "C19", "title": "Fractional orders move by continuous time successors", "statement": "For every vector of clock values, the fractional order built from it is an ordered partition of the clocks by fractional part; successor and predecessor keep this and are mutually inverse, and successor matches the order obtained by letting time pass to the next region.", "quantifier": "every number of clocks and every vector of values", "why_tests_cant": "Dense values, unbounded number of clocks.", "anchors": ["include/fractional_order.hh: FractionalOrder"]}
{"id": "C20", "title": "Timed conditions denote what their constructors say", "statement": "The timed condition built from accumulated durations is satisfied by them and contains exactly the vectors with the same integer parts and fractional comparisons; the exact condition contains only the given vector; isSimple holds of the former.", "quantifier": "all duration vectors", "why_tests_cant": "Dense values, unbounded length.", "anchors": ["include/timed_condition.hh: TimedCondition(vector), makeExact, isSimple"]}
{"id": "C21", "title": "Concatenation of elementary languages is exact", "statement": "A timed word belongs to the concatenation of two elementary languages iff it is the concatenation of a word of the first and a word of the second.", "quantifier": "all elementary languages and timed words", "why_tests_cant": "Dense durations; unbounded length.", "anchors": ["include/timed_condition.hh: operator+", "include/elementary_language.hh: operator+, contains"]}
{"id": "C22", "title": "Enumeration partitions an elementary language into simple ones", "statement": "enumerate() returns simple elementary languages included in the original, pairwise disjoint, that together cover it.", "quantifier": "all bounded elementary languages", "why_tests_cant": "Dense durations; number of regions grows without bound.", "anchors": ["include/timed_condition.hh: enumerate", "include/elementary_language.hh: enumerate"]}
{"id": "C23", "title": "Completion keeps the language and makes the automaton total", "statement": "After makeComplete(alphabet) every non-negative valuation enables a transition for every letter in every state, the automaton stays deterministic if it was, and the accepted timed language is unchanged.", "quantifier": "all timed automata without unobservable transitions, all timed words over the alphabet", "why_tests_cant": "Infinite languages.", "anchors": ["include/timed_automaton.hh: makeComplete"]}
{"id": "C24", "title": "Complementation is language complement", "statement": "complement(alphabet) of a deterministic automaton accepts a timed word over the alphabet iff the automaton does not.", "quantifier": "all deterministic timed automata without unobservable transitions, all timed words over the alphabet", "why_tests_cant": "Infinite languages.", "anchors": ["include/timed_automaton.hh: complement, makeComplete, deepCopy"]}
{"id": "C25", "title": "Product automaton accepts the intersection", "statement": "The automaton built by IntersectionProduct accepts a timed word iff both operands accept it.", "quantifier": "all pairs of well-formed timed automata whose clocks lie within their maximum tables (total clocks at most 255), all timed words of observable events", "why_tests_cant": "Infinite languages; clock index arithmetic wraps at 256.", "anchors": ["src/intersection.cc: intersectionTA"]}
{"id": "C26", "title": "Structural simplification preserves the language", "statement": "Removing unreachable states, dead states, dead loops, useless transitions, weaker duplicated transitions and unused clocks does not change the accepted timed language.", "quantifier": "all timed automata, all timed words", "why_tests_cant": "Infinite languages.", "anchors": ["include/timed_automaton.hh: removeTriviallyUnreachableStates, removeTriviallyDeadStates, removeDeadLoop, removeUselessTransitions, removeUnusedClockVariables, simplify, simplifyStrong"]}
{"id": "C27", "title": "The runner executes the declarative semantics", "statement": "Feeding a timed word to the runner yields acceptance exactly when the automaton has an accepting run on that word; once stuck it stays rejecting; pre() makes every run independent of earlier ones.", "quantifier": "all deterministic timed automata without unobservable transitions, all timed words, all interleavings of earlier runs", "why_tests_cant": "Histories are unbounded.", "anchors": ["include/timed_automaton_runner.hh: TimedAutomatonRunner"]}
{"id": "C28", "title": "Resets compose like functions", "statement": "composition(left, right) applied to a valuation equals applying right then left; clean() and addDefault() have the effect their names state.", "quantifier": "all reset lists and valuations", "why_tests_cant": "Unbounded lists; overlapping targets.", "anchors": ["include/timed_automaton.hh: composition, addDefault, clean", "include/timed_automaton_runner.hh: applyReset"]}
{"id": "C29", "title": "Membership caching is transparent", "statement": "For every history of membership queries, the cached oracle gives the answers the underlying oracle would give, asks each distinct word at most once, and count() reports the number of distinct words asked.", "quantifier": "every sequence of queries", "why_tests_cant": "Histories are unbounded.", "anchors": ["include/membership_oracle.hh: MembershipOracleCache, SULMembershipOracle"]}
{"id": "C30", "title": "Counterexamples are genuine and missing ones mean agreement on all tests", "statement": "The test-based equivalence oracle returns only words on which hypothesis and target disagree, and returns nothing only if they agree on all registered words.", "quantifier": "every list of test words, hypothesis and target", "why_tests_cant": "Test sets and hypotheses are arbitrary.", "anchors": ["include/equivalence_oracle_by_test.hh: findCounterExample"]}
{"id": "C31", "title": "Memoizing and chaining equivalence oracles keeps soundness and completeness", "statement": "The memo and chain oracles return a counterexample only if it is genuine, and return nothing only if every member oracle returned nothing; earlier counterexamples are re-checked before asking again.", "quantifier": "every chain of oracles and every history of hypotheses", "why_tests_cant": "Histories are unbounded.", "anchors": ["include/equivalence_oracle_memo.hh", "include/equivalance_oracle_chain.hh"]}
{"id": "C32", "title": "Learning returns only accepted hypotheses", "statement": "Whenever Learner::run returns, the equivalence oracle found no counterexample to the returned automaton.", "quantifier": "every oracle behaviour and every number of rounds", "why_tests_cant": "Histories are unbounded.", "anchors": ["include/learner.hh: run"]}
{"id": "C33", "title": "Symbolic membership answers are exact", "statement": "The timed conditions returned by the symbolic membership query cover exactly those simple sub-languages of the queried language whose sample the system accepts, independent of earlier queries.", "quantifier": "every elementary language, every target whose acceptance is region-invariant, every query history", "why_tests_cant": "Unbounded languages and histories.", "anchors": ["include/symbolic_membership_oracle.hh: query", "include/timed_condition_set.hh: reduce"]}
{"id": "C36", "title": "Sampling a zone returns a member", "statement": "Zone::sample of a satisfiable zone of non-negative clocks returns one value per clock and the valuation lies in the zone.", "quantifier": "every satisfiable zone of any dimension", "why_tests_cant": "Infinitely many zones; the failing ones need an unusual mix of strict and inclusive bounds.", "anchors": ["include/zone.hh: sample"]}
{"id": "C37", "title": "Reverting resets is the exact pre-image", "statement": "Zone::revertResets applied to a zone gives the set of valuations that the resets send into the zone, so that backward reconstruction loses and invents no predecessor.", "quantifier": "every canonical zone and every list of resets", "why_tests_cant": "All zones and all reset lists.", "anchors": ["include/zone.hh: revertResets", "include/symbolic_run.hh: reconstructWord"]}
{"id": "C38", "title": "Sets of juxtaposed zones", "statement": "Adding a renaming to a set of juxtaposed zones keeps exactly the pairs of valuations satisfying it, and drops only empty zones; two sets compare equal exactly when they denote the same zones.", "quantifier": "every set of canonical zones and every renaming", "why_tests_cant": "All sets.", "anchors": ["include/juxtaposed_zone_set.hh: addRenaming, operator=="]}
{"id": "C39", "title": "Runner answers with unobservable transitions are backed by runs", "statement": "When the runner accepts a timed word on an automaton with unobservable transitions, the automaton has a run (with unobservable steps at some times) accepting it.", "quantifier": "all timed automata, all timed words, all loop bounds", "why_tests_cant": "The unobservable step is taken at a time computed from the guards and the current clock values; only a proof covers all guards and values.", "anchors": ["include/timed_automaton_runner.hh: step(double)", "include/constraint.hh: lowerBoundDurationToSatisfy"]}
{"id": "C40", "title": "Merging or pruning transitions keeps the language", "statement": "mergeAdjacentTransitions and removeTransitionsWithWeakerGuards do not change the accepted timed language.", "quantifier": "all timed automata, all timed words", "why_tests_cant": "Whether two guards may be merged depends on all valuations; tests check a few guards.", "anchors": ["include/timed_automaton.hh: mergeAdjacentTransitions", "src/timed_automaton.cc: removeTransitionsWithWeakerGuards"]}
{"id": "C41", "title": "The sample of an elementary language belongs to it and represents it", "statement": "sample() returns a timed word contained in the language; for a simple language every member has all its duration sums in the same unit intervals as the sample.", "quantifier": "all satisfiable bounded elementary languages over visible actions", "why_tests_cant": "Dense durations and unbounded number of events; the greedy choice of each duration must never block a later one.", "anchors": ["include/elementary_language.hh: sample, contains"]}
{"id": "C42", "title": "Set operations on timed conditions mean what they say", "statement": "Equality, intersection, inclusion, convex hull, removal of upper bounds, removal of inclusive upper bounds, assignment of constants and conversion to guards of timed conditions agree with the sets of durations they stand for: equality is set equality, intersection is exact, inclusion is sound, the hull is the smallest canonical condition containing all, removing upper bounds is letting time pass, assigning constants changes exactly the assigned clocks to the constant's point or unit interval, and the guard holds exactly when the bounds do.", "quantifier": "all canonical satisfiable timed conditions and all durations", "why_tests_cant": "Dense durations and unbounded sizes.", "anchors": ["include/timed_condition.hh: operator==, operator&&, includes, convexHullAssign, removeUpperBoundAssign, removeEqualityUpperBoundAssign, applyResets(resets), toGuard", "include/elementary_language.hh: convexHull"]}
{"id": "C43", "title": "Forward regional languages are regions and successor/prefix walk region by region", "statement": "A forward regional language built from a timed word, by the default constructor, by successor(a) or by successor() is exactly one region (all timed words with the same letters whose durations between any two events lie in the same unit interval), it is the region of each of its members, successor() is the next region met when time passes at the end, repeated successor() meets every further delay, immediatePrefix undoes exactly one step, prefixes() terminates and lists exactly the regions of the prefixes of its members, and all members have extensions in the same regions.", "quantifier": "every timed word of any length with rational durations; every delay; every sequence of successor operations", "why_tests_cant": "Dense durations, unbounded words and unbounded numbers of successors.", "anchors": ["include/forward_regional_elementary_language.hh: fromTimedWord, successor, immediatePrefix, prefixes", "include/timed_condition.hh: extendN, successor, prefix", "include/fractional_order.hh"]}
{"id": "C44", "title": "Backward regional languages are regions and predecessor walks region by region", "statement": "A backward regional language built by the default constructor and the two predecessor operations is exactly one region, and predecessor() is the next region met when the start of the word is moved back; fromTimedWord builds the region of its word and the documented order of the fractional parts, which immediateSuffix follows.", "quantifier": "every timed word, every sequence of predecessor operations", "why_tests_cant": "Dense durations, unbounded words.", "anchors": ["include/backward_regional_elementary_language.hh: predecessor, fromTimedWord, immediateSuffix", "include/timed_condition.hh: extendZero, predecessor, suffix"]}
{"id": "C45", "title": "Acceptance does not distinguish timed words of one region", "statement": "A timed automaton with integer constants and without unobservable transitions accepts a timed word exactly when it accepts every other timed word with the same letters whose durations between any two events lie in the same unit intervals.", "quantifier": "all such automata, all pairs of region-equivalent timed words of any length", "why_tests_cant": "Dense durations and unbounded words: this is what justifies asking one sample per simple elementary language.", "anchors": ["include/timed_automaton_runner.hh: step", "include/symbolic_membership_oracle.hh: included"]}
{"id": "C34", "title": "Counterexample analysis finds a breaking suffix", "statement": "When the hypothesis gives an answer on the word, the analysis gives a result too. It returns a suffix only for a genuine counterexample; that suffix is in none of the current suffix languages and separates a word of the domain of one of the hypothesis' morphisms from a related word of its codomain. It throws exactly when the word is not a counterexample, and returns nothing only if the separating suffix is already known or the hypothesis is wrong on one of its own prefixes. (Termination for every hypothesis, which one would like too, is false: refuted.)", "quantifier": "every hypothesis, every membership oracle, every word, every list of current suffixes", "why_tests_cant": "Words, hypotheses and oracles are unbounded.", "anchors": ["include/counterexample_analyzer.hh: analyzeCEX", "include/recognizable_languages.hh: contains, split"]}
{"id": "C46", "title": "Recognizable languages read words along their morphisms", "statement": "A morphism maps every word of its domain into its codomain, to a word related by the renaming. split() cuts a word into a prefix in the domain of a morphism and a rest, losing nothing, and succeeds whenever some prefix is in such a region. contains() follows these maps until it reaches one of the prefixes and answers whether that prefix is final.", "quantifier": "every recognizable language, every morphism, every timed word", "why_tests_cant": "The words, the number of rounds and the renamings are unbounded.", "anchors": ["include/single_morphism.hh: maps", "include/recognizable_languages.hh: contains, split, maps"]}
{"id": "C35", "title": "The zone automaton covers every run", "statement": "Every configuration of every run of the timed automaton, at the start or just after a transition, lies in the zone of a state of the constructed zone automaton at the same location, and every accepted word labels a path from an initial to an accepting state, so that a zone automaton without accepting state means the language is empty. Nothing is made up: every edge is a transition some valuation of the (elapsed) source zone can take, every zone is the extrapolation of exactly what one transition makes of an earlier state. (For transitions whose renamings do not read a clock already renamed; with a swap a configuration is missed.)", "quantifier": "all timed automata, all runs, every iteration order of the hash table, with and without quickReturn when it does not stop early", "why_tests_cant": "Runs are unbounded and valuations uncountable.", "anchors": ["src/ta2za.cc: ta2za", "include/zone_automaton_state.hh: ZAState"]}
{"id": "C47", "title": "The zone construction terminates", "statement": "For every timed automaton, building the zone automaton ends after finitely many steps, in both modes and whatever the iteration order of the hash table, and gives the same result however much longer one waits. So a finite zone automaton that covers every run always exists.", "quantifier": "all timed automata whose clocks are within their maximal constants (any resets, also to fractional or negative constants or from other clocks), both modes, every iteration order", "why_tests_cant": "Termination quantifies over all automata; the extrapolation in the code alone does not bound the zones, termination rests on merging included zones.", "anchors": ["src/ta2za.cc: ta2za", "include/zone.hh: extrapolate, includes"]}
{"id": "C48", "title": "Sampled words are accepted", "statement": "Whenever a timed word is sampled from the zone automaton of a timed automaton (by ta2za with quick return, or by sample/sampleWithMemo after it), the word is an observable timed word accepted by the automaton; in particular nothing is sampled from an automaton with an empty language.", "quantifier": "all timed automata (any number of clocks, guards, constant and renaming resets that do not read assigned clocks), both construction modes, any iteration order of the hash table", "why_tests_cant": "the sampled point of a zone can lie outside the zone, so each concrete run passing the assertion says nothing about the next automaton", "anchors": ["include/symbolic_run.hh:reconstructWord", "include/zone_automaton.hh:sample,sampleWithMemo", "include/zone.hh:sample,revertResets", "src/ta2za.cc:ta2za"]}
{"id": "C49", "title": "No sampled word means an empty language", "statement": "If the zone automaton was constructed completely and no timed word is sampled from it, the timed automaton accepts no observable timed word.", "quantifier": "all timed automata, both construction modes", "why_tests_cant": "universal over automata; the failing cases need three clocks and strict bounds, which the examples under test do not have", "anchors": ["include/symbolic_run.hh:reconstructWord", "include/zone_automaton.hh:sample", "include/timed_automata_equivalence_oracle.hh:subset,superset"]}
{"id": "C50", "title": "Counterexamples of the equivalence oracle are genuine", "statement": "Any timed word that ComplementTimedAutomataEquivalenceOracle::findCounterExample returns is a timed word over the oracle's alphabet that exactly one of target and hypothesis accepts; a hypothesis with the target's language is never rejected; every query terminates and is counted.", "quantifier": "every target with an automaton for its complement, every deterministic silent-free hypothesis, every iteration order of the hash tables; automata with nonnegative constant resets in which no transition assigns a clock twice or reads a clock it assigns", "why_tests_cant": "the confirmation in the code is an assertion that release builds drop, and it only covers the queries that happen to be made; products, simplifications, zones and word reconstruction must all be right together", "anchors": ["include/timed_automata_equivalence_oracle.hh: findCounterExample, subset, superset", "src/intersection.cc", "src/ta2za.cc", "include/zone_automaton.hh", "include/symbolic_run.hh"]}
{"id": "C51", "title": "No counterexample means equivalent", "statement": "When findCounterExample returns nothing, target and hypothesis accept the same timed words over the alphabet.", "quantifier": "every target, complement and hypothesis", "why_tests_cant": "absence of a counterexample is a claim about all words", "anchors": ["include/timed_automata_equivalence_oracle.hh: findCounterExample", "include/zone_automaton.hh: sample", "include/zone.hh: sample"]}
{"id": "C52", "title": "Rows declared equivalent cannot be told apart", "statement": "When the table's row comparison says that two prefixes are equivalent under a renaming of their event times, then some word of the first is related to some word of the second by the renaming, and for every pair of related words and every suffix in the languages of the columns, the target contains both extended words or neither. Hence a suffix that separates two related words always makes the comparison fail.", "quantifier": "every target, pair of prefix languages, list of suffix languages, renaming and rows answered by the symbolic membership oracle", "why_tests_cant": "the statement ranges over all real-valued words of the languages; the comparison is on syntactic zone sets whose equality operator is not an equivalence in general", "anchors": ["include/equivalence.hh:equivalence", "include/juxtaposed_zone_set.hh:operator==", "include/renaming_relation.hh:RenamingRelation"]}
{"id": "C53", "title": "A deterministic renaming found by the search is a witness", "statement": "Whenever the search for an equivalent renaming between two prefixes returns one, the renaming relates existing events, gives each target event at most one source, leaves no imprecise clock, and makes the prefixes indistinguishable by the current suffixes; between regions every word of the source is related to a word of the target, so the resulting morphism of the hypothesis is defined on its whole domain.", "quantifier": "every target, pair of prefixes and rows answered exactly", "why_tests_cant": "ranges over all words of the prefixes and all renamings the search may pick", "anchors": ["include/equivalence.hh:findDeterministicEquivalentRenaming", "include/renaming_relation.hh:hasImpreciseClocks"]}
{"id": "C54", "title": "Candidate renamings respect the bounds and order of events", "statement": "The bipartite graph built for two timed conditions connects exactly the events whose time since has the same upper bound, in both adjacency lists; every candidate renaming is a set of such edges to events whose time is not fixed, is monotone in the order of the events, uses each target event at most once and leaves no imprecise clock; conversely the candidates are exactly the empty renaming and the full renamings (each renamable event once, simultaneous events sharing a source event, others strictly later source events, constrained with constrained) that leave no imprecise clock; the last element of a candidate is only read when there is one.", "quantifier": "every pair of prefixes with non-negative durations and every set of constrained variables", "why_tests_cant": "all lengths and all bounds of conditions", "anchors": ["include/equivalence.hh:toGraph", "include/equivalence.hh:generateDeterministicEquivalenceCandidates"]}
{"id": "C55", "title": "The reset built from a renaming reaches the right clock values", "statement": "The sample valuation of a region lies in the region. Firing a transition with the reset built from a renaming without imprecise clocks, after any word of the source that is related to some word of the target region, gives the clocks the values they have after a word of the target region that is related to the word read; for a renaming found by the search this holds after every word of the source, and no current suffix tells the two words apart.", "quantifier": "every pair of prefix regions, every renaming and every word of the source", "why_tests_cant": "ranges over all words of a region and all renamings", "anchors": ["include/renaming_relation.hh:toReset", "include/timed_condition.hh:toValuation"]}
{"id": "C56", "title": "Every cell of the observation table says exactly which concatenations belong to the target", "statement": "After any sequence of operations on an observation table made by its constructor, the cell of prefix P and suffix S denotes exactly the words of P followed by words of S that are in the target; in particular the first column decides the membership of every word of every prefix.", "quantifier": "for every membership oracle that answers, on every proper word and in every state it can reach, for a fixed target that does not separate words of one region; every alphabet of observable letters; every iteration order of the unordered containers; every sequence of table operations (close, consistency, exterior consistency, time saturation, taking the described language, adding counterexamples), as long as every symbolic question asked has a word (which is proved to hold always before the first counterexample)", "why_tests_cant": "the table is a state machine whose content depends on the whole sequence of operations, on hash-container order and on answers about infinitely many words; tests run a few histories of a few targets", "anchors": ["include/observation_table.hh", "include/learner.hh", "include/symbolic_membership_oracle.hh", "ObservationTable::fillObservationTable", "ObservationTable::refreshTable"]}
{"id": "C57", "title": "The prefixes of the table form a tree that is complete around P", "statement": "After any sequence of operations: the empty word is in P; every row of P has as rows its successor by letting time pass and its successor by each letter; every other row is such a successor of an earlier row of P; P has no repetition and only rows.", "quantifier": "for every membership oracle that answers, on every proper word and in every state it can reach, for a fixed target that does not separate words of one region; every alphabet of observable letters; every iteration order of the unordered containers; every sequence of table operations (close, consistency, exterior consistency, time saturation, taking the described language, adding counterexamples), as long as every symbolic question asked has a word (which is proved to hold always before the first counterexample)", "why_tests_cant": "the table is a state machine whose content depends on the whole sequence of operations, on hash-container order and on answers about infinitely many words; tests run a few histories of a few targets", "anchors": ["include/observation_table.hh", "include/learner.hh", "include/symbolic_membership_oracle.hh", "ObservationTable::moveToP"]}
{"id": "C58", "title": "close() reports a closed table only when every boundary row has a row of P that no suffix separates from it", "statement": "If close() answers true then for each row outside P the target that the hypothesis generation will use is a row of P, with a renaming such that related words of both are not separated by any suffix, and such that the reset made of it puts the clocks at the values they have after a related word; and the rows, P and the suffixes are unchanged. If it answers false then P strictly grew by an old row and the suffixes are unchanged.", "quantifier": "for every membership oracle that answers, on every proper word and in every state it can reach, for a fixed target that does not separate words of one region; every alphabet of observable letters; every iteration order of the unordered containers; every sequence of table operations (close, consistency, exterior consistency, time saturation, taking the described language, adding counterexamples), as long as every symbolic question asked has a word (which is proved to hold always before the first counterexample)", "why_tests_cant": "the table is a state machine whose content depends on the whole sequence of operations, on hash-container order and on answers about infinitely many words; tests run a few histories of a few targets", "anchors": ["include/observation_table.hh", "include/learner.hh", "include/symbolic_membership_oracle.hh", "ObservationTable::close"]}
{"id": "C59", "title": "consistent() reports a consistent table only when alike rows have alike successors", "statement": "If consistent() answers true then any two rows of P were found different or are not separated by the suffixes, and then their successors by each letter are not separated either, nor (unless found different) are their successors by time; nothing else changed. If it answers false then exactly one suffix was added, after which two rows of P that were alike are no longer found alike.", "quantifier": "for every membership oracle that answers, on every proper word and in every state it can reach, for a fixed target that does not separate words of one region; every alphabet of observable letters; every iteration order of the unordered containers; every sequence of table operations (close, consistency, exterior consistency, time saturation, taking the described language, adding counterexamples), as long as every symbolic question asked has a word (which is proved to hold always before the first counterexample)", "why_tests_cant": "the table is a state machine whose content depends on the whole sequence of operations, on hash-container order and on answers about infinitely many words; tests run a few histories of a few targets", "anchors": ["include/observation_table.hh", "include/learner.hh", "include/symbolic_membership_oracle.hh", "ObservationTable::consistent", "ObservationTable::resolveDiscreteInconsistency", "ObservationTable::resolveContinuousInconsistency"]}
{"id": "C60", "title": "The inner loop of the learner ends only with an exact, closed, consistent, exterior-consistent and time-saturated table", "statement": "When the refinement loop ends, the table meets all four conditions at once, not only the one checked last; exteriorConsistent() and timeSaturate() report exactly: true only when the condition holds, false only when P strictly grew.", "quantifier": "for every membership oracle that answers, on every proper word and in every state it can reach, for a fixed target that does not separate words of one region; every alphabet of observable letters; every iteration order of the unordered containers; every sequence of table operations (close, consistency, exterior consistency, time saturation, taking the described language, adding counterexamples), as long as every symbolic question asked has a word (which is proved to hold always before the first counterexample)", "why_tests_cant": "the table is a state machine whose content depends on the whole sequence of operations, on hash-container order and on answers about infinitely many words; tests run a few histories of a few targets", "anchors": ["include/observation_table.hh", "include/learner.hh", "include/symbolic_membership_oracle.hh", "ObservationTable::exteriorConsistent", "ObservationTable::timeSaturate", "Learner::run"]}
{"id": "C61", "title": "The language description made from the table uses only true facts about the target", "statement": "The recognizable language made from the table is well formed; its prefixes are exactly the rows of P; on words of these prefixes its final ones are exactly those in the target; each of its morphisms goes from a row outside P to a row of P and relates only words that no suffix separates.", "quantifier": "for every membership oracle that answers, on every proper word and in every state it can reach, for a fixed target that does not separate words of one region; every alphabet of observable letters; every iteration order of the unordered containers; every sequence of table operations (close, consistency, exterior consistency, time saturation, taking the described language, adding counterexamples), as long as every symbolic question asked has a word (which is proved to hold always before the first counterexample)", "why_tests_cant": "the table is a state machine whose content depends on the whole sequence of operations, on hash-container order and on answers about infinitely many words; tests run a few histories of a few targets", "anchors": ["include/observation_table.hh", "include/learner.hh", "include/symbolic_membership_oracle.hh", "ObservationTable::toRecognizable"]}
{"id": "C62", "title": "Every counterexample adds a new suffix that separates two rows that were alike", "statement": "If handling a counterexample succeeds then exactly one suffix is added, it is in no language of an old suffix, it separates a row outside P from the row of P it was identified with, and the rows and P are unchanged. A word on which the described language is wrong is never rejected by an exception or abort.", "quantifier": "for every membership oracle that answers, on every proper word and in every state it can reach, for a fixed target that does not separate words of one region; every alphabet of observable letters; every iteration order of the unordered containers; every sequence of table operations (close, consistency, exterior consistency, time saturation, taking the described language, adding counterexamples), as long as every symbolic question asked has a word (which is proved to hold always before the first counterexample)", "why_tests_cant": "the table is a state machine whose content depends on the whole sequence of operations, on hash-container order and on answers about infinitely many words; tests run a few histories of a few targets", "anchors": ["include/observation_table.hh", "include/learner.hh", "include/symbolic_membership_oracle.hh", "ObservationTable::handleCEX", "include/counterexample_analyzer.hh"]}
{"id": "C63", "title": "No table operation throws", "statement": "The constructor and all operations other than handling a counterexample never leave by an exception (missing map entry, index out of range); without counterexamples the oracle never refuses a question; only consistent() may call abort().", "quantifier": "for every membership oracle that answers, on every proper word and in every state it can reach, for a fixed target that does not separate words of one region; every alphabet of observable letters; every iteration order of the unordered containers; every sequence of table operations (close, consistency, exterior consistency, time saturation, taking the described language, adding counterexamples), as long as every symbolic question asked has a word (which is proved to hold always before the first counterexample)", "why_tests_cant": "the table is a state machine whose content depends on the whole sequence of operations, on hash-container order and on answers about infinitely many words; tests run a few histories of a few targets", "anchors": ["include/observation_table.hh", "include/learner.hh", "include/symbolic_membership_oracle.hh", "ObservationTable"]}
{"id": "C64", "title": "The learner returns a hypothesis only for a fully refined table and only when the equivalence oracle has accepted it", "statement": "When learning ends, the automaton returned was generated from a table that is exact, closed, consistent, exterior-consistent and time-saturated, and the last equivalence query about exactly that automaton found no counterexample.", "quantifier": "for every membership oracle that answers, on every proper word and in every state it can reach, for a fixed target that does not separate words of one region; every alphabet of observable letters; every iteration order of the unordered containers; every sequence of table operations (close, consistency, exterior consistency, time saturation, taking the described language, adding counterexamples), as long as every symbolic question asked has a word (which is proved to hold always before the first counterexample)", "why_tests_cant": "the table is a state machine whose content depends on the whole sequence of operations, on hash-container order and on answers about infinitely many words; tests run a few histories of a few targets", "anchors": ["include/observation_table.hh", "include/learner.hh", "include/symbolic_membership_oracle.hh", "Learner::run"]}
{"id": "C65", "title": "A hypothesis can always be built from a refined table, and it is a complete deterministic automaton", "statement": "Generating the hypothesis from a table on which close, consistent, exteriorConsistent and timeSaturate all succeeded throws no exception and does not abort; the automaton is deterministic, has one initial state and no unobservable transition, uses only letters of the alphabet and has a run on every timed word over the alphabet. The automaton the learner then simplifies and hands to the equivalence oracle has the same language, is deterministic, and complementing it is exact.", "quantifier": "for every membership oracle answering for a fixed target that does not separate words of one region and is unchanged by a final delay; every alphabet of distinct observable letters; every iteration order of the unordered containers; every sequence of table operations and counterexamples; every table refined after it", "why_tests_cant": "the construction walks the whole table (continuous and discrete successors, renamings, guards merged along delay chains), so its shape depends on the whole history; tests build a few hypotheses", "anchors": ["include/observation_table.hh", "ObservationTable::generateHypothesis", "include/internal_transition_maker.hh", "include/external_transition_maker.hh", "src/timed_automaton.cc", "include/learner.hh"]}
{"id": "C66", "title": "The hypothesis is right about every row of the table", "statement": "The hypothesis built from a refined table, before and after the learner simplifies it, accepts a timed word that belongs to a row (in P or at its border) if and only if the word is in the target.", "quantifier": "for every table, target, alphabet, iteration order and history as in C65, every row of the table and every one of the infinitely many words in that row", "why_tests_cant": "each row denotes infinitely many timed words and its run passes through merged guards and fractional or renamed clock resets; a test samples finitely many words", "anchors": ["include/observation_table.hh", "ObservationTable::generateHypothesis", "include/renaming_relation.hh", "include/learner.hh"]}
{"id": "C67", "title": "For a target given as a deterministic timed automaton the hypothesis agrees with the target on all rows", "statement": "If the target is a deterministic timed automaton run by the runner behind the membership cache, then the hypothesis the learner proposes and the target automaton accept the same words among the words of the rows; a word on which they differ lies in no row of the table.", "quantifier": "for every deterministic target without unobservable transitions and with integer resets, every alphabet of distinct letters, every iteration order, every history of table operations and counterexamples, every word", "why_tests_cant": "ties together the runner, the cache, the symbolic oracle, the table and the construction of the hypothesis; tests only see finitely many targets and words", "anchors": ["include/observation_table.hh", "include/learner.hh", "include/timed_automaton_runner.hh", "include/membership_oracle.hh"]}
{"id": "C68", "title": "Simplifying an automaton with its zone graph removes only what no accepted word uses", "statement": "simplifyWithZones always ends. It only removes states, initial states and transitions, so it adds no word and keeps determinism. If no renaming of a transition reads a clock that an earlier renaming of the same transition has changed, the timed language is unchanged, every remaining state lies on a path from an initial to an accepting state and no transition with an unsatisfiable guard is left. (Without that condition the simplification can lose accepted words: proved by an example.)", "quantifier": "for every well-formed timed automaton whose clocks have a maximal constant and whose letters are below CHAR_MAX, every order in which the hash tables of the zone graph are searched, every timed word", "why_tests_cant": "the zone graph abstracts infinitely many clock valuations; a test compares the languages on finitely many words of a few automata", "anchors": ["src/timed_automaton.cc", "TimedAutomaton::simplifyWithZones", "include/zone_automaton.hh", "ZoneAutomaton::removeDeadStates", "src/ta2za.cc"]}
{"id": "C69", "title": "The hypothesis the learner submits, and the automaton it returns", "statement": "From every refined table the learner gets a hypothesis to submit (after both simplifications): it is deterministic, has no unobservable transition, uses only letters of the alphabet and accepts no word that the hypothesis built from the table rejects; unless its renamings race it has the same language, is right on every row of the table and has an exact complement. If the learner returns, and its equivalence oracle accepts only automata with the target's language, the automaton returned has the target's language.", "quantifier": "for every table, target, alphabet, iteration order and history as in C65 to C67, every search order of the zone graph, every timed word", "why_tests_cant": "composes the table, the hypothesis, two simplifications and the zone graph over all histories and all timed words; tests run a few targets", "anchors": ["include/learner.hh", "Learner::run", "src/timed_automaton.cc", "TimedAutomaton::simplifyWithZones", "include/observation_table.hh"]}
{"id": "C70", "title": "Genuine counterexamples never make the learner fail", "statement": "If every counterexample that the equivalence oracle gives is genuine (a timed word over the alphabet on which the submitted hypothesis and the target differ), Learner::run raises no exception. (FALSE of this code: a deterministic target, an iteration order and an honest equivalence oracle are exhibited for which the learner ends with std::logic_error in the counterexample analysis, because the zone-based simplification has removed accepted words from the hypothesis.)", "quantifier": "for every deterministic target automaton, every honest equivalence oracle, every iteration order of the containers, every sequence of rounds", "why_tests_cant": "the failure needs a particular sequence of counterexamples on a target whose equivalent prefixes have different lengths; tests with a few targets do not meet it, and no finite set of tests could show its absence", "anchors": ["include/learner.hh", "Learner::run", "include/counterexample_analyzer.hh", "analyzeCEX", "src/timed_automaton.cc", "TimedAutomaton::simplifyWithZones", "include/zone.hh", "Zone::applyResets"]}
{"id": "C71", "title": "Hypothesis automaton and recognizable language agree", "statement": "Once the table is closed, consistent, exterior-consistent and time-saturated, the two representations of the learned language agree: for every timed word for which RecognizableLanguage::contains (built by toRecognizable) has an answer, the automaton of generateHypothesis, and its simplified form handed to the equivalence oracle, accepts the word exactly when the answer is true. So a word on which that automaton differs from the target never makes handleCEX throw or abort. Premise: the morphisms of toRecognizable use the same target row and renaming as generateHypothesis, which holds when the memo of distinguished rows has no pair of a row and its target.", "quantifier": "all regular targets (any membership oracle consistent with a region- and delay-invariant language), all histories of table operations and counterexamples, all container iteration orders, all timed words", "why_tests_cant": "the equality is between two different semantics (unfolding morphisms over regions vs running a timed automaton with guards and resets) on an infinite set of words; a test can only compare finitely many", "anchors": ["include/observation_table.hh: ObservationTable::generateHypothesis, ObservationTable::toRecognizable, ObservationTable::handleCEX", "include/recognizable_languages.hh: RecognizableLanguage::contains", "include/single_morphism.hh: SingleMorphism::maps", "include/counterexample_analyzer.hh: CounterExampleAnalyzer::analyze"]}
{"id": "C72", "title": "The neighbours of a situation are exactly the words that look alike", "statement": "NeighborConditions built from the region of a timed word w and a set of precise clocks terminates, treats clocks with an integer value as precise too, and covers exactly the words that have the letters of w, every clock in the same unit interval as in w and every difference of two clocks that are both precise or both imprecise in the same unit, after letting time pass as long as every precise clock stays in its unit; w itself is covered. If all clocks or no clock are precise, only the region of w is.", "quantifier": "all regional languages, all sets of precise clocks, all orders of hash values", "why_tests_cant": "the covered words are an infinite set and the relaxed condition depends on every pair of clocks; a test compares a few regions", "anchors": ["include/neighbor_conditions.hh", "NeighborConditions::makeNeighbors", "NeighborConditions::NeighborConditions", "NeighborConditions::addImplicitPreciseClocks", "NeighborConditions::updateNeighborsWithContinuousSuccessors"]}
{"id": "C73", "title": "Successors of neighbours follow the original", "statement": "If at least one clock is precise, NeighborConditions::successor() and successorAssign terminate, move the original to its next region and leave as neighbours exactly the delayed neighbours whose precise clocks are in the same units as those of the new original. successor(action) appends the action to the original and to every neighbour, and the new clock is precise. In both cases the original stays covered by the neighbours and precise clocks agree.", "quantifier": "all reachable NeighborConditions, all actions, any number of steps, all orders of hash values", "why_tests_cant": "termination of the loop and the set of regions reached must hold for every region and every set of clocks", "anchors": ["include/neighbor_conditions.hh", "NeighborConditions::successor", "NeighborConditions::successorAssign", "NeighborConditions::updateNeighborsWithContinuousSuccessors"]}
{"id": "C74", "title": "Relaxed guards cover the neighbours and keep precise clocks", "statement": "match holds only if the guard is true in the whole region of the original (and does hold then, for guards without trivial constraints); toRelaxedGuard holds for every neighbour, bounds each clock by what some neighbour has, and keeps each precise clock in its unit; precise() means that the neighbours cover only the region of the original; the transition that ImpreciseClockHandler adds has the target of the matched one, fires for every neighbour and whenever the matched one does, and is strictly weaker.", "quantifier": "all NeighborConditions, all guards, all clock valuations", "why_tests_cant": "guards are compared over all real valuations of the clocks", "anchors": ["include/neighbor_conditions.hh", "NeighborConditions::match", "NeighborConditions::precise", "NeighborConditions::toRelaxedGuard", "include/imprecise_clock_handler.hh", "ImpreciseClockHandler::handleOne"]}
{"id": "C75", "title": "Precise clocks after a reset", "statement": "preciseClocksAfterReset returns only clocks below the clock size of the target whose unit after the reset is determined by the precise clocks before it, and every such clock except those set to a fraction; embedIfImprecise makes a reset that acts as before on precise clocks, sets each imprecise clock of the embedded valuation to its value there and leaves the other clocks; the clock size of a state is the least number above every clock its guards read.", "quantifier": "all sets of clocks, all resets without a repeated clock, all valuations, all states", "why_tests_cant": "the claim quantifies over all pairs of valuations that agree on some clocks", "anchors": ["include/neighbor_conditions.hh", "NeighborConditions::preciseClocksAfterReset", "NeighborConditions::computeClockSize", "include/imprecise_clock_handler.hh", "ImpreciseClockHandler::embedIfImprecise"]}
{"id": "C76", "title": "Assignments into another set of clocks act exactly on timed conditions", "statement": "TimedCondition::applyResets(resets, targetClockSize) returns a canonical satisfiable condition over the clocks of the target whose valuations are exactly those that agree with the values after the assignments of some valuation of the condition: equal for the clocks that are renamed or kept, in the same unit interval (alone and in each difference) for the clocks that get constants. No valuation is lost; integer and finite bounds are kept; if every clock gets a constant the result is simple.", "quantifier": "every satisfiable timed condition, every list of assignments with distinct targets whose sources exist, every number of clocks of the target", "why_tests_cant": "tests check three conditions; the loops build a difference bound matrix by overwriting entries, which is only right if no entry is overwritten twice", "anchors": ["include/timed_condition.hh:applyResets(resets, targetClockSize)", "include/juxtaposed_zone.hh:addRenaming"]}
{"id": "C77", "title": "Assignments into another set of clocks on regional languages", "statement": "ForwardRegionalElementaryLanguage::applyResets(word, resets, size) returns a region over the given word, each valuation of which comes from a valuation of the language by the assignments (up to the units of the constants); if all constants are integers it holds exactly the values after the assignments; with a fraction one region cannot hold all of them.", "quantifier": "every regional language, every word of visible letters, every list of assignments with distinct targets whose sources exist", "why_tests_cant": "tests check one region", "anchors": ["include/forward_regional_elementary_language.hh:applyResets"]}
{"id": "C78", "title": "Neighbours after a transition", "statement": "NeighborConditions::makeAfterTransition terminates and returns neighbours of a region of values after the transition: the original holds only values obtained from values of the old original by the assignments, its precise clocks are those that are assigned a precise value or keep one, or whose value is an integer, and one of the neighbours is the original. For internal transitions the shortcut (the discrete successor) agrees with the general construction.", "quantifier": "all neighbours, all transitions with distinct targets whose sources exist, all orders of hash values", "why_tests_cant": "the result depends on hash order, on enumeration and on sampling; tests check a few regions", "anchors": ["include/neighbor_conditions.hh:makeAfterTransition", "include/neighbor_conditions.hh:constructOriginalAfterTransition", "include/neighbor_conditions.hh:isInternal"]}
{"id": "C79", "title": "Handling imprecise clocks only relaxes the hypothesis", "statement": "ImpreciseClockHandler::run changes the automaton only by adding transitions, and each of them has the source, letter and target of a transition that was there before and a weaker guard: states, acceptance and existing transitions stay, every timed word accepted before is accepted after, and no path through the states is new. For one pair on the work list, every added transition fires for all neighbours of some time successor of the situation, and if it has an upper bound it fires only while the precise clocks are where they are in that successor. The loop over time successors of a pair ends if some transition of its state fires in the whole situation (clock by clock) at some time to come, however many transitions are added meanwhile; if none ever does (for example, no transition) it never ends. When it ends, the state has been gone through for every region up to one for which nothing matched has an upper bound: every transition matched there whose relaxed guard is strictly weaker has got its relaxation, and the pairs for its target have gone to the work list. When the run ends, every pair pushed has been gone through in this way, or one with the same hash, and so has every pair this put on the work list. Nothing else goes to the work list: a pair put there is that of a transition matched in one of the regions, is not precise and has a precise clock. As hash values are bounded, the work list itself comes to its end: the run can only fail to return because the loop for one pair does.", "quantifier": "all automata, all work lists and orders of taking elements from it, all hash functions, all iteration orders of the containers, all situations of timed words, all delays, any number of rounds", "why_tests_cant": "the work list, the number of rounds and the transitions added while looping are unbounded, and language inclusion ranges over all timed words; whether a loop ends cannot be observed by a test", "anchors": ["include/imprecise_clock_handler.hh: ImpreciseClockHandler::push, ImpreciseClockHandler::run, ImpreciseClockHandler::handleOne", "include/neighbor_conditions.hh: NeighborConditions::successorAssign, NeighborConditions::makeAfterTransition, NeighborConditions::toRelaxedGuard"]}
{"id": "C80", "title": "Merging nondeterministic branches", "statement": "TAState::mergeNondeterministicBranching loses no valuation: whatever enabled a transition with a letter enables one afterwards. Every transition afterwards, with or without precise clocks given, has the target and the assignments of one of before and is enabled whenever that one was. A pass leaves a list of transitions as it is if and only if no valuation enables two of them, and otherwise makes it shorter, so repeating it makes the state deterministic; one pass is enough if the transitions come in classes that overlap pairwise and lie in disjoint regions. Without precise clocks the two overloads do the same. mergeNondeterministicBranchingWithSameTarget keeps, for each target, the valuations that lead to it, and the assignments it makes have one entry for each clock: an integer constant of the first transition stays, else the first integer constant the other one has, else what the first one had.", "quantifier": "all lists of transitions of any length, all guards, all valuations, all choices between two overlapping transitions, all sets of precise clocks, all iteration orders of the containers", "why_tests_cant": "determinism and coverage are about all real valuations, and the result depends on the order in which an unbounded number of transitions is merged", "anchors": ["src/timed_automaton.cc: TAState::mergeNondeterministicBranching, TAState::mergeNondeterministicBranchingWithSameTarget, mergeTransitions, impreciseClocksAfterTransition", "include/timed_automaton.hh: TATransition::addPreciseConstantAssignments, TATransition::impreciseConstantAssignSize"]}
{"id": "C81", "title": "The suffix of a regional language by a prefix covers the language", "statement": "If p is the region of a prefix (in time) of a word of the forward regional language x, without unobservable letters, then ForwardRegionalElementaryLanguage::suffix(p) is the region of a timed word without negative durations, carries the order of the fractional parts of the T_{0,i} that BackwardRegionalElementaryLanguage documents, a word of it continues the representative of p to a word of x, and every timed word of x is a word of p followed by a word of the suffix. This applies to the language of every timed word and all its prefixes().", "quantifier": "all forward regional languages with canonical condition, all prefixes, all members (every length, all rational durations)", "why_tests_cant": "the midpoint chosen by sample() may differ between the prefix and the constrained language, and inclusion ranges over a dense set of words; one sampled word does not show that no duration gets negative", "anchors": ["include/forward_regional_elementary_language.hh: ForwardRegionalElementaryLanguage::suffix", "include/elementary_language.hh: ElementaryLanguage::constrain, ElementaryLanguage::sample"]}
{"id": "C82", "title": "Splitting states by precise clocks", "statement": "ObservationTable::splitStates returns a set of states each of which stands for one original state and one set of precise clocks (no two for the same), accepting iff the original is; every transition leads where one of the original ones leads, with the same assignments and at least its guard, no action loses all its transitions, and from a reachable state it leads to the state whose clocks are exactly those known precisely after the assignments. On a deterministic automaton the timed language and all transitions are kept. It returns if and only if clock 0 is the only clock in the guards of the initial state, and occurs there; otherwise the result of a failed find() is dereferenced.", "quantifier": "all well-formed automata, all iteration orders of sets of clocks, all preferences between overlapping transitions, all timed words", "why_tests_cant": "the number of reachable pairs is not bounded by the input's size, and language equality ranges over all timed words; the function is never reached on the tables in the tests (C65)", "anchors": ["src/observation_table.cc: InternalSplitStates::StateMap, ObservationTable::splitStates", "include/neighbor_conditions.hh: NeighborConditions::preciseClocksAfterReset, NeighborConditions::computeClockSize", "src/timed_automaton.cc: TAState::mergeNondeterministicBranching"]}
{"id": "C83", "title": "Search for a renaming that need not be deterministic", "statement": "findEquivalentRenaming returns only renamings that are sound: there are related words of the two languages, and no given suffix distinguishes related words. If it returns nothing, the empty renaming fails the equivalence test, and either the rows differ in which cells are empty or no set of pairs relating an event constrained by the left row to an event of the right language with the same upper bound passes the test. The generation of candidates ends, and so does the last search if its candidates are sorted.", "quantifier": "all pairs of elementary languages, suffixes and exact rows, all behaviours of std::lower_bound on unsorted candidates", "why_tests_cant": "related words are real-valued, and the absence of a renaming ranges over all sets of pairs", "anchors": ["include/equivalence.hh: findEquivalentRenaming", "include/renaming_relation.hh: RenamingRelation::addImplicitConstraints"]}
