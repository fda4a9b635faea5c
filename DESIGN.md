# Formal model of LearnTA in Coq 8.16 — design

## Method
* `rocq/theories/*Model.v`: small total computable Gallina functions, one per C++ function, each citing file and lines.
* `rocq/theories/Spec.v`-style definitions sit in the files named `*Spec.v` (denotations: what a guard, a zone, a
  timed word, an automaton *means*), written without reference to the modelled algorithms.
* `rocq/theories/*Proofs.v`: lemmas.  `rocq/theories/Properties*.v`: only `Theorem … Proof. exact …. Qed.` and
  `Print Assumptions`, plus an `Example` per theorem showing that a non-trivial case meets the hypotheses.
* A property which the code violates is recorded as a theorem `…_refuted` with a concrete witness, next to the
  strongest positive statement that does hold (suffix `_partial` when it is weaker than the property).

## Global simplifications
* `double` is modelled by exact rationals `Q`; rounding is not modelled.  The sentinel
  `(numeric_limits<double>::max(), false)` is a separate constructor `Inf`.
* `int` constants are `Z`; INT_MAX is kept explicitly as the sentinel of `toBounds`.
* `ClockVariables` (uint8_t) is `nat`; wrap-around is modelled only where a property is about it.
* `std::unordered_map`/`set` iteration order is unspecified: modelled by an association list in insertion order; the
  theorems are about membership, hence order independent.
* C++ asserts and `.at()` out of range are preconditions, stated as hypotheses.

## Plan per property
| id | modelled | proof |
|----|----------|-------|
| C01 | Constraint::satisfy/negate | case analysis over Q |
| C02 | isWeaker | bounds order = semantic inclusion |
| C03 | toBounds, satisfiable | bounds table invariant, witness valuation by midpoint |
| C04 | simplify | bounds table invariant |
| C05 | DNF negate incl. the in-place erase loop | induction over disjuncts; erase loop keeps union |
| C06 | unionHull | map invariant by induction over guards |
| C07 | adjacent, merge | exact when one clock differs; refuted in general |
| C08 | TAState::deterministic | C03 on all pairs |
| C09–C14 | DBM functions of Zone | Floyd–Warshall invariants in the ordered monoid of bounds; extension lemma |
| C15 | applyResets on zones vs. runner's applyReset | exact for constants; refuted for chained renamings |
| C16 | JuxtaposedZone | block matrices + C09/C10 |
| C17,C18 | TimedWord | list induction |
| C19 | FractionalOrder | ordered partition invariants |
| C20–C22 | TimedCondition, ElementaryLanguage | DBM lemmas |
| C23–C26 | TimedAutomaton transformations | simulation of runs |
| C27 | TimedAutomatonRunner | refinement to declarative runs |
| C28 | composition/addDefault/clean | pointwise functions |
| C29–C32 | oracles, learner loop | invariants over histories |
| C33 | symbolic membership | counting argument on regions |
| C34 | analyzeCEX (a linear search), cexSplits | invariant along the list of splits: a change of answer between neighbours refutes a morphism; non-termination by an invariant of a concrete hypothesis |
| C35 | ta2za (both modes), ZAState, sample | invariant of the worklist: processed states are closed under successors; each operation on zones exact or enlarging |
| C41 | ElementaryLanguage::sample | invariant: the prefix chosen so far extends (closed zones), midpoint of a non-empty interval |
| C42 | timed condition ==, &&, includes, hull, removeUpperBound, toGuard | tightness of closed matrices |
| C43 | forward regional elementary languages: fromTimedWord, successor, immediatePrefix, prefixes | bounds of a region + fractional order determine the next region; termination measure = sum of floors |
| C44 | backward regional elementary languages | same, mirrored; refutation by a concrete word for predecessor() after fromTimedWord |
| C46 | single_morphism.hh maps, recognizable_languages.hh split/contains | juxtaposed zone is relatively open, so its sample is exact; prefixes of a word by regions |
| C47 | ta2za (both modes) | bounds lie on a grid and are capped by the extrapolation; Dickson via almost-full relations: no infinite sequence of zones none included in an earlier one |
| C48 | reconstructWord, sample, sampleWithMemo, ta2za quick return | backward induction over the symbolic run: sampled points lie in the closure of the zone; a successful run forces them into the zone itself (the zone before a jump is a box cut with an elapsed zone) |
| C49 | the same | refuted by a concrete automaton |
| C50 | EquivModel: addUpperBoundForUnobservableTransitions, subset, superset, findCounterExample over the models of product, complement, simplifications, zone construction and sampling | each pass keeps well-formedness, clock bounds, nonnegative resets, no read of an assigned clock (EquivProofs); then C25, C26, C48, C24; termination by C47 |
| C51 | the same | refuted by a concrete target (exMiss) |
| C52 | `RenamingModel.v` equivB/equivE (equivalence.hh, juxtaposed_zone_set.hh, renaming_relation.hh), rows as the oracle answers them (`RenamingSpec.v`) | zones of pairs of related words; members of both restricted sets determine each other |
| C53 | findDet, candidates | C52 for the candidate chosen; region argument for totality |
| C54 | toGraph, genCandidates | induction over the events, invariants of candidates |
| C55 | toReset, toValuation | the reset valuation is built coordinate by coordinate inside the region |
| C56 | ObservationTable cells | invariant over all operation sequences: structure, filled cells, exactness of the symbolic oracle's cache (C33) |
| C57 | moveToP, addSuccessors | structural invariant of the three successor maps |
| C58 | close | relation entries are re-checked before use; soundness of the renaming search (C53, C55) |
| C59 | consistent | loop over pairs with the memo of distinguished rows; resolving adds a suffix that breaks the renaming |
| C60 | refine (learner.hh inner loop), exteriorConsistent, timeSaturate | each check leaves the table unchanged enough for the previous conditions to persist |
| C61 | toRecognizable | facts of the table invariant transported to the language description |
| C62 | handleCEX | C34's analysis yields a suffix that separates two rows; the suffix is new |
| C63 | all operations | every map lookup is shown defined by the structural invariant |
| C64 | learn (learner.hh) | the loop's exit conditions |
| C65 | HypothesisModel: StateManager, generateHypothesis (observation_table.hh 792–1221), transition makers, mergeNondeterministicBranching, simplify passes of learner.hh | breadth-first search invariant; the guards of one delay chain are boxes that partition time; every lookup is defined by the table invariant; determinism from disjointness of the boxes |
| C66 | the same | run by run: the configuration after reading a word of a row is the state of the row's representative, with clock values in the region reached by the renaming's reset (C55) |
| C67 | the same with OracleInstance | C66 + C27/C45 for the target |
| C68 | SimplifyZonesModel: simplifyWithZones (src/timed_automaton.cc 51–127) on ZoneGraphModel's ta2za and removeDeadStates | backward search is exact for reaching an accepting node; every accepting run is followed through nodes that are live, so every transition it takes is kept |
| C69 | FinalHypothesisModel: learner.hh 38–43, with TableModel's `learn` | C65–C67 + C68; every clock of a hypothesis has a maximal constant |
| C70 | all of the above composed (TableModel `learn`, FinalHypothesisModel, CexModel) | refuted: a target, an honest equivalence oracle (acceptance decided by exhaustive run search, proved exact) and four rounds computed in the kernel that end in the throw |
| C71 | TableModel `toRecognizable`, CexModel `rContains`, HypothesisModel | every step of the unfolding replaces a prefix by its morphism image; replacing it does not change acceptance (swap lemmas for discrete and continuous successors: both words reach the same location with equal or equally far clock values, HypothesisAgree*.v), induction on the unfolding |
| C72 | NeighborModel `makeNeighbors`, `newNbr` (spec NeighborSpec: `relaxedLike`, `covers`, `describes`) | the condition built is the conjunction of the units that are kept (restriction lemmas of C20), its enumeration covers exactly it (C22), samples are regional (C26) |
| C73 | NeighborModel `updateNeighbors`, `nbSucc`, `nbSuccAct` | upper bounds of regions are compared through the index of the unit; the loop over continuous successors visits every delayed region (C28) and ends since the index of a precise clock grows; without a precise clock it provably never ends |
| C74 | NeighborModel `nbMatch`, `toRelaxedGuard`, `relaxOne` | guard of a region = unit of each clock; hull semantics (C06), isWeaker (C02) |
| C75 | NeighborModel `preciseAfterReset`, `embedIfImprecise`, `computeClockSize` | characterisation of the members, then the semantics of resets; maximality by exhibiting two valuations |
| C76 | TargetResetModel `tcApplyResetsTo` (spec TargetResetSpec `likeReset`, `resetsInto`) | the forced bounds are at pairwise distinct entries, so the condition built is their conjunction (induction over both loops); then juxtaposition, renaming and projection are exact (C16) |
| C77 | TargetResetModel `frApplyResetsTo` | the condition has integer and finite bounds, so the region of its sample (C18, C26) lies inside; with integer constants all resets of one region lie in one region |
| C78 | TargetResetModel `originalAfter`, `makeAfter` | C77, C75 and the constructor (C72); the internal case and the general case are regions with a common word |
| C79 | ImpreciseModel `runLoop`, `rounds`, `handleActions` (NeighborModel, TargetResetModel) | the relation "only relaxed transitions are added" is kept by every push and composed over the loops; language inclusion by induction on runs; the loop ends because the upper bounds of added guards stay below a constant (an invariant on all guards of the state) while the delay grows past every bound (reachability of regions, C43); what has been relaxed is an invariant that later additions keep (ImpreciseProofs3), and the visited pairs are closed under what exploring them pushes |
| C80 | MergeModel `mergeW`, `mergeP`, `addPreciseConsts`; HypothesisModel `mergeND` | one double loop with a condition and a merging function; induction with what the merging function keeps; classes by an invariant on labelled lists (the hull of two guards of a region stays in it, C06) |
| C81 | SuffixModel `frSuffix`, ElementaryModel `elConstrain` | the sampled duration is the middle of the possible ones (so it is the same when the possible ones are the same), hence the constrained sample never ends before the prefix does; a cut point can be moved along with a region (one-dimensional Helly argument on units) |
| C82 | SplitModel `splitStates` (MergeModel `mergeNDP`, NeighborModel `preciseAfterReset`) | one invariant of the map of states for two relations between transition lists (comes from / is the same and does not overlap), kept by copying, merging and retargeting; the loop ends since the pairs over the states and the clocks below the largest clock size are finitely many; language equality by simulation both ways |
| C83 | `FullRenamingModel.v` genLoop/searchLoop/findFull (equivalence.hh findEquivalentRenaming), on top of RenamingModel | soundness from the two soundness lemmas of C52; invariant of the candidates (edges of the graph); what a search that ends with nothing has tried, by induction on the rounds |
| C45 | run semantics of automata | simulation relating clock values to T_{i,j} plus integers |

## Trusted base
* Coq 8.16.1's kernel (including `vm_compute`, used only in `Example`s and `_refuted` witnesses) and its standard library.
* `Print Assumptions` follows every theorem of the manifest in the `Properties*.v` files; for **every** theorem it prints
  "Closed under the global context": no axiom is used, neither of the standard library nor of another one.  (coqchk lists seven
  axioms `Coq.ssr.ssrunder.Under_rel.*` because the standard library's ssr files are loaded; no theorem depends on them.)
* No axiom, parameter, admitted proof, functor or module type is declared in `rocq/theories`.
* The faithfulness of the `*Model.v` files to the C++ text: each definition cites the file and lines it models.
* The simplifications listed above under "Global simplifications".

## What is modelled
| file in /repo | model | not modelled |
|---|---|---|
| include/bounds.hh | BoundsModel | rounding of doubles; printing |
| include/constraint.hh, conjunctive_constraint.hh | ConstraintModel | printing, ConstraintMaker sugar |
| include/zone.hh | ZoneModel | `operator^` (reads out of range), printing; the double-valued random choice of `sample` is the midpoint the code takes |
| include/juxtaposed_zone.hh, juxtaposed_zone_set.hh, renaming_relation.hh | TimedConditionModel, RenamingModel | printing |
| include/timed_word.hh, fractional_order.hh, timed_condition.hh, elementary_language.hh | TimedWordModel, RegionalModel, TimedConditionModel, ElementaryModel, ConditionResets (applyResets) | printing, hashing |
| include/timed_condition_set.hh, symbolic_membership_oracle.hh, sul.hh, membership_oracle.hh | SymbolicModel, OracleModel | statistics printing |
| include/forward_/backward_regional_elementary_language.hh | RegionalModel, SuffixModel | printing, hashing |
| include/timed_automaton.hh, src/timed_automaton.cc | AutomatonModel, EquivModel, HypothesisModel, SimplifyZonesModel, MergeModel | graphviz output |
| include/timed_automaton_runner.hh | AutomatonModel (runner) | |
| include/ta2za.hh, src/ta2za.cc, zone_automaton*.hh, symbolic_run.hh | ZoneGraphModel | log output |
| include/intersection.hh, src/intersection.cc | AutomatonModel (product) | the mutation of the const operands |
| include/timed_automata_equivalence_oracle.hh, equivalence_oracle_*.hh | EquivModel, OracleModel | the random generator (any word stream is allowed) |
| include/counterexample_analyzer.hh, single_morphism.hh, recognizable_languages.hh | CexModel | |
| include/equivalence.hh | RenamingModel, FullRenamingModel | |
| include/neighbor_conditions.hh, imprecise_clock_handler.hh | NeighborModel, TargetResetModel, ImpreciseModel | `applyResets` (one state); hashing (any function); asserts |
| include/observation_table.hh, learner.hh | TableModel, HypothesisModel, FinalHypothesisModel | in the construction of the hypothesis ImpreciseClockHandler::run and splitStates are arbitrary parameters, proved without effect for every table the learner produces (C65), and modelled separately (ImpreciseModel, NeighborModel, SplitModel); handleInactiveClocks, renameConsistent (no caller); logging |
| examples/, bin/, test/ | | not modelled |

Parameters instead of code: iteration order of unordered containers (`ordP`, `ordR`, `ordI`: any permutation), the position a
new row gets (`place`: any function), the choice between overlapping transitions (`prefer`: any function), fuel for loops whose
termination is not structural (a run out of fuel is a separate result; theorems about results quantify over the fuel).

## Findings (statements of the code's behaviour proved as `_refuted` theorems, counter-example `Example`s or needed as hypotheses)
* Guards: `negate` of a DNF ignores an empty (true) guard; `adjacent`/merge is inexact when two clocks differ or one side is
  unbounded (C07), so mergeAdjacentTransitions may enlarge a language, though not on the guards of one delay chain.
* Zones: sequential renamings in `applyResets` differ from the runner's parallel ones, so ta2za misses reachable
  configurations unless resets are race free (C35), and simplifyWithZones may remove accepted words of such an automaton (C68), which does happen to hypotheses of the learner and makes `Learner::run` end with `std::logic_error` on a genuine counterexample (C70); `revertResets` loses predecessors for renamings (C48);
  `sample` can return a point outside the zone, so `reconstructWord` may return nothing for a feasible run (C49) and the
  equivalence oracle may declare a wrong hypothesis equivalent (C51); `elapse` needs canonical zones and loses emptiness.
* The hypothesis automaton (before simplifyWithZones) and the recognizable language agree on all words, provided both use the same target rows (C71). toRecognizable asks equivalentWithMemo, whose memo of distinguished pairs is symmetric although the renaming search is not; generateHypothesis does not ask it, so the two may pick different targets.
* `NeighborConditions::successor()` and `successorAssign` never return when no clock is precise (C73); the learner only builds the
  class when some clock is. The neighbours made may be regions of no timed word: clocks that are and are not precise are compared by
  unit only, so a neighbour may have a negative duration, and the relaxed guard admits such clock values (C72_impossible_neighbor).
* `TimedCondition::applyResets(resets, size)` never compares the assigned values: increasing constants give a condition whose durations are all negative (C76_order_is_not_checked). A clock of the target that is neither assigned nor a clock of the source is renamed from a clock that does not exist (an assert of addRenaming, nothing in a release build). With a fraction the result is one region out of several (C77_fractions_split_a_region).
* `constructOriginalAfterTransition` calls `back()` on the word and takes the size of the target from its guards only: an empty word, or a target whose guards are all `true`, is undefined behaviour or a word of length SIZE_MAX (C78_needs_a_letter_and_a_clock).
* `mergeNondeterministicBranching` may leave a state nondeterministic (C80_one_pass_is_not_enough), the overload with precise clocks may lose valuations (C80_precise_clocks_lose), and `mergeTransitions` compares the vectors of imprecise clocks lexicographically where its comment speaks of fewer imprecise clocks (C80_more_imprecise_clocks_are_preferred).
* `ImpreciseClockHandler::run` never returns for a pair whose state has no transition that fires at some time to come (C79_loop_never_returns, C79_no_transition_no_end), and adds nothing when the relaxed guard and the matched guard are incomparable, so neighbours may stay without transition (C79_incomparable_guard_is_not_relaxed).
* `lowerBoundDurationToSatisfy` is off for strict bounds and ignores upper bounds; `addUpperBound` turns `x>=c` into `x<c+1`.
* Runner with two or more unobservable transitions picks by `min_element` the longest delay (C27's hypothesis).
* makeComplete may produce an automaton that fails `deterministic()`; states with an unobservable guard are not completed.
* `predecessor()` after `fromTimedWord` of a backward region uses the wrong fractional order (C44, witness [0.3;0.3]), so
  after a counterexample a symbolic question may have no word (hypothesis `askedNonempty`).
* `ForwardRegionalElementaryLanguage::suffix` gives a language that follows the prefix outside the language too (C81_suffix_may_have_more), and whose `predecessor()` may be empty (C81_predecessor_of_a_suffix).
* `RecognizableLanguage::contains`/analyzeCEX may not terminate on an ill-formed hypothesis (C34).
* Row equivalence compares zones syntactically: sound, not complete. `JuxtaposedZoneSet::operator==` is not symmetric.
* generateHypothesis aborts for targets whose acceptance changes by a final delay and for duplicate letters; its exterior
  lookup is guarded only by an assert.  A counterexample may have to be given more than once before it is accepted.
* `ObservationTable::splitStates` dereferences the end of a map unless clock 0 is the only clock in the guards of the initial state and occurs there (C82_returns); it merges the transitions of the original state (`originalState->mergeNondeterministicBranching`), which are not used afterwards, so the initial state is never merged (C82_initial_state_is_not_merged).
* findEquivalentRenaming (no caller) inserts with `std::lower_bound` in the order of pairs into candidates that `addImplicitConstraints` has sorted by the right component, and adds pairs without keeping the right components unique, which `toReset` needs (C83, C55).
* Dead code: CNone/addPrefixes branch of handleCEX, ImpreciseClockHandler, splitStates and the unobservable branch of
  generateHypothesis for tables built by the learner; most of extrapolate's second and third tests.
