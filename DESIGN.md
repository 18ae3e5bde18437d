# Formal model of coin-or/Cgl in Rocq (Coq 8.16.1)

The library under study is in /repo (C++).  It was read as text only.  This
document says what is modelled, how each property of `properties.jsonl` is
stated and proved, and what the result rests on.

## 1. Trusted base

* Coq 8.16.1's kernel (and `vm_compute` for the concrete examples and the
  refutation witnesses).
* What `Print Assumptions` prints under every theorem of the `Props_*.v`
  files.  The aim is `Closed under the global context` everywhere; any
  standard-library axiom that shows up is listed in section 5.
* The reading of the C++ code: each definition of a `Model_*.v` file carries a
  comment citing the file and lines of /repo it transcribes and every
  simplification made.
* The specification vocabulary of `Spec.v` (MIP, feasible point, row cut,
  column cut, "keeps every feasible point").
* Behaviour of code outside /repo (OSI, CoinUtils), as described where used:
  `OsiCuts::insertIfNotDuplicate`, `CoinPackedVector::insert`, sorting
  functions (any permutation that is sorted), `getColType`, `getRowSense`
  (sense derived from the two row bounds).

## 2. Modelling decisions common to all generators

* **Numbers.** C++ `double`s are modelled by exact rationals `Q`; rounding
  error is not modelled (exceptions: parameter setters, which are modelled
  on IEEE binary64 through the standard library's `SpecFloat`, so that NaN and
  infinities behave as in C++).  Infinite bounds are `None : option Q`.
  The tolerances of the code (`epsilon_`, `1.0e-8`, ...) are kept as they are,
  in exact arithmetic.  Where a tolerance makes the exact claim false the
  property carries the proviso ("no nonzero datum is below the tolerance") and
  a `_refuted` theorem shows the proviso is needed.
* **Undefined behaviour** (integer division by zero, int overflow in casts,
  out-of-bounds access, use after free) is a distinct outcome `Undef` of the
  model functions, never silently totalised.
* **Loops** become structural recursion, folds, or recursion on fuel with a
  distinct out-of-fuel outcome that the theorems exclude or prove unreachable.
* **sqrt-normalised scores** (used only to choose among candidate cuts) are
  modelled with the normalising function as a section variable, i.e. the
  theorems hold for every such function.
* **Points** are functions `nat -> Q`; a MIP's feasible set is given by rows,
  column bounds and integrality.  Since all data is rational, an inequality
  that holds for all rational feasible points holds for all real ones.
* Debug printing, timing and message handlers are not modelled.

## 3. File layout

`theories/Spec.v` specification vocabulary, read this first;
`theories/Base.v` helper functions and arithmetic lemmas;
`theories/Model_X.v` transcription of generator X;
`theories/Proofs_X.v` lemmas; `theories/Props_X.v` the property theorems, each
with `Print Assumptions`, concrete examples meeting the hypotheses, and
`_refuted` theorems.

## 4. Property plan

| id | modelled code | proof |
|----|---------------|-------|
| C01 | CglSimpleRounding: whole `generateCuts` incl. `deriveAnIntegerRow`, `power10ToMakeDoubleAnInt`, `gcdv` | row by row: netting-out lemma, division by gcd, floor of the right-hand side |
| C02 | `gcd`, `gcdv` on ints | well-founded Euclid, equality with `Z.gcd` |
| C03 | CglStored pool: constructor, `addCut`, setters, `generateCuts` | invariant over histories, refinement to a list of cuts |
| C04 | CglStored implication cuts | case analysis on the four implication kinds |
| C05 | CglParam | invariant over setter histories, binary64 via SpecFloat |
| C06-C08 | CglClique set-packing graph, star and row clique methods, enumeration, greedy | adjacency implies conflict; invariants of the recursion; completeness by induction on the candidate list |
| C09 | CglClique tolerance handling | state machine; refutation on early exit |
| C10-C11 | CglOddHole row selection and cut construction | summing an odd number of rows, halving, rounding |
| C12 | CglOddHole public entry point | history independence (refutation of the intended claim) |
| C13-C14 | CglAllDifferent constructor and propagation | invariant: no all-different assignment is lost |
| C15-C16 | CglResidualCapacity | Magnanti-Mirchandani-Vachani argument; setter invariants |
| C17-C22 | CglKnapsackCover row derivation, cover searches, lifting, exact solver | implied-row lemma; superadditive lifting; branch-and-bound invariant; lifting induction |
| C23 | CglKnapsackCover row list ownership | heap state machine |
| C24 | CglMixedIntegerRounding complete pipeline | MIR inequality, invariant of bound substitution and write-back |
| C25 | CglGMI from tableau row to cleaned cut | disjunctive argument, algebra of slack elimination |
| C26-C27 | CglTreeProbingInfo word encoding and table building | bit lemmas; counting-sort correctness |
| C28 | ownership model of copies | heap state machine |

| C29-C30 | CglTreeProbingInfo `fixColumns`, `generateCuts` on packed tables | invariant: recorded implications hold for every solution |
| C31 | CglStored constructor from a file, reader loop | induction on the records of the file |
| C32-C34 | CglGMIParam, CglRedSplitParam, CglRedSplit2Param setters | histories of setters over binary64 |
| C35-C36 | CglOddHole work arrays, shortest-path search, copies | fuel bound; heap machine |
| C37-C38 | CglAllDifferent tables and fixpoint | memory bounds, attained bounds |
| C39 | CglResidualCapacity and CglMixedIntegerRounding caches | bisimulation of histories |
| C40 | CglKnapsackCover `generateCuts` | C17, C19, C20, C21 composed |
| C41 | CglMixedIntegerRounding exceptions, violation | index-uniqueness invariant of the packed vectors |
| C42-C43 | CglGMI cleaning, integral scaling | last step of each procedure; Euclid |
| C44-C46 | CglProbing with maxProbe 0: working copy, strengthening, `tighten` | invariant of the bound box over the passes; list-capacity and freed-row invariants |
| C47-C50 | CglGomory: cut from a basis-inverse row, packing, rational stage, cleaning, marks | gap of the cut as a sum over nonbasic columns and slacks, kept by each stage; denominators (grid) for the exact case |
| C51-C56 | CglZeroHalf: loading, parity problem, separation graph, shortest odd cycles, weakening, copies | cut = half the sum of rows and bounds with even coefficients, rounded; invariant of the weakening table; potential argument for the shortest path trees; size bounds for int |
| C57-C59 | CglFlowCover: variable bounds, cover search, lifted simple generalized flow cover, limit on the number of cuts | invariant of the cover search; superadditivity of the lifting function; error bound for dropped terms, zero on grid data; decreasing number of candidates |
| C60-C63 | CglCliqueStrengthening: detection of set packing rows, extension, dominance, removal and addition of rows, counters and names | loop invariant tying clique rows to solver rows; literal sums of cliques; new rows imply the removed ones through the literal form |
| C64-C67 | CglLiftAndProject: arrays of the cone program, loop over the columns, cut, normalization | memory frame lemmas; both sides of the disjunction as sums over columns; optimality against every feasible multiplier |
| C68-C71 | CglBKClique: vertices taken, cliques, extension, cuts, marks, parameters | literal form of the cut; weight of a clique kept by extension; invariant over histories |
| C72-C74 | CglOddWheel: rim and centre coefficients, cuts, parameters | closed-walk bound by summing edges, integrality; case split on the centre |
| C75 | scratch arrays of CglBKClique and CglOddWheel | ownership invariant over programs |
| C76-C79 | CglTwomir: tableau and formulation bases, MIR and two-step MIR, slacks, nicefying, writing of the cuts, settings | two-step MIR by cases on the quotient; error bound carried through every step; shape of the written cuts |
| C80-C84 | CglRedSplit: reduction of the tableau, split cuts, slacks, scaling and packing, choice of rows | invariant of the reduction (integer combinations, equal lattices, stamps), decreasing norms for termination; split disjunction with an error term; shape of the packed row |
| C85-C89 | CglDuplicateRow: clique mode, deletion of rows, fixing of columns, copies | invariant of the incremental lexicographic sort (groups by common prefix), subset scan by sorted lists; rows as sums over open columns |
| C90-C97 | CglLandP: range rows, lift-and-project simplex, intersection and mixed integer cuts, validator, limits, copies | split disjunction on an exact tableau row with a tolerance; invariant over all pivots that the choices may make; counting of flags and pivots for termination; converted problem with one column per range row |
| C98-C102 | CglMixedIntegerRounding2: validity over histories and with Clp, outcomes, form of cuts, settings, copies | as C24, with rows hidden while aggregating, small coefficients moved to a bound, and weakened cuts; index invariants; the slack of an aggregated row never cancels |
| C103-C107 | row_cut (CglProbing) and CglUniqueRowCuts (CglPreProcess): insertion, duplicates, erasure, copies, handing over | invariant of the hash table: no slot has a successor, each names its last cut up to equality |
| C108-C113 | CglPreProcess::cliqueIt and CglBK: feasible points, rows added and removed, outcomes, copies | invariant of the search (candidates and excluded = common neighbours of the clique); pivot argument; exchange of sums for the array lengths |
| C114-C116 | CglPreProcess::makeInteger: an optimum is kept, outcomes, columns found | numbers on a grid (a tolerance decides integrality exactly); rounding one column; invariant over rows, columns and passes |
| C117-C119 | CglPreProcess::reducedCostFix, someFixed, passInProhibited | duality: cost = value + reduced costs + prices, each term of one sign; counting picked columns |
| C120-C122 | CglPreProcess::tightenPrimalBounds, tighten | invariants of the point in both stages (sums over the row are bounded by tops and bottoms and stay so while bounds move); coefficients by sign of the gap |
| C123-C124 | CglPreProcess: computeGcd, scaleRowIntegral and the scaling of rows in preProcessNonDefault | a value with a small denominator that is near an integer is one; gcd of numerators and lcm of denominators |
| C125-C127 | CglPreProcess: analyze, an optimum is kept, values returned, columns found | as C114-C116; the two columns of a pair are lowered together until one is 0 |
| C128-C129 | CglPreProcess: createOriginalIndices, originalColumns, originalRows, update | composition of index maps; sorting an increasing list; moving entries in place |

### Parts of /repo that are modelled

| directory | modelled | not modelled |
|-----------|----------|--------------|
| CglSimpleRounding | everything but the C++ generator | `generateCpp` |
| CglStored (in CglCommon) | pool, file constructor, implication cuts, copies | `saveStuff`'s solver snapshot |
| CglTreeInfo (in CglCommon) | entries, `fixes`, `convert`, `packDown`, `fixColumns`, `generateCuts` | `analyze`, OsiObject creation |
| CglParam, CglGMIParam, CglRedSplitParam, CglRedSplit2Param | all setters, getters, constructors | - |
| CglClique | all separation methods | CLQ_DEBUG output |
| CglOddHole | row selection, all phases of the search, cut construction, copies | random number generator (arbitrary sequence) |
| CglAllDifferent | constructor, propagation, table | `refreshSolver` beyond the translation table |
| CglResidualCapacity | everything, with the cached classification | `generateCpp` |
| CglKnapsackCover | row derivation, four cover searches, both liftings, exact solver, row list | probing-style `deriveAKnapsack` variants under `#if 0` |
| CglMixedIntegerRounding | everything, with the cached rows and variable bounds | `generateCpp`, debug files |
| CglMixedIntegerRounding2 | everything, with the branch for Clp (CBC_HAS_CLP is the parameter `clp`) | `generateCpp`, debug files; models that have lost columns since the preprocessing; CoinIndexedVector's 1e-100 for cancelled entries is 0 |
| CglUniqueRowCuts (in CglPreProcess), row_cut (in CglProbing) | everything | moving the row out of the argument of `addCutIfNotDuplicate` |
| cliqueIt and CglBK (in CglPreProcess) | everything | printing; counts of rows of the second kind (only printed); the array `mark_` (membership); the objective |
| makeInteger (in CglPreProcess) | everything | printing |
| reducedCostFix, someFixed, passInProhibited (in CglPreProcess) | everything | the call of resolve in someFixed: solution and reduced costs are arguments; printing |
| tightenPrimalBounds, tighten (in CglPreProcess) | both stages, final bounds, changed coefficients | printing; writing of the model to files; stored zeros divide by zero in C++ and are excluded |
| row scaling in preProcessNonDefault (in CglPreProcess) | lines 1722-1850, scaleRowIntegral, computeGcd | CoinRational is a parameter; the rest of preProcessNonDefault |
| analyze (in CglPreProcess) | everything | printing; the tests of 1395-1429, which have no rows to look at |
| createOriginalIndices, update (in CglPreProcess) | everything without CBC_USE_PAPILO | arrays of OsiPresolve are parameters; printing |
| CglGMI | `generateCuts` from the basis inverse to the pool, all seven cleaning procedures | OSI_TABLEAU variant, rejection counters |
| CglProbing | working copy of the rows, row strengthening, `tighten` without cliques, column cut, arrays handed back (maxProbe <= 0) | probing proper (`probe`, `probeCliques`, `probeSlacks`), snapshots, clique branch of `tighten`, `cliqueModel` |
| CglGomory | `generateCuts` from the basis inverse to the pool, rational stage, cleaning, global marks | gomoryType_ 1 and 2 (original solver), computation of the length limits (arbitrary numbers) and of the condition number |
| CglZeroHalf | `refreshSolver`, `generateCuts`, all of Cgl012cut used by it (parity problem, separation graph, shortest odd cycles, weakening, cut scoring), flags, copies | the tabu search `#ifdef`ed out of the build, debug profiling |
| CglFlowCover | `flowPreprocess`, `determineOneRowType`, `generateCuts`, `generateOneFlowCut`, `liftMinus`, `liftPlus`, limit on the number of cuts | `generateCpp`, copies, debug output |
| CglCliqueStrengthening | constructor, `detectCliqueRows`, `strengthenCliques` (both forms), `cliqueExtension`, `checkDominance`, `addStrongerCliques`, `removeDominatedRows`, CliqueRows | the extension methods themselves (CoinCliqueExtender) and the conflict graph, messages |
| CglLiftAndProject | `generateCuts`, `setBeta` | the solver of the cone program, leaks, `generateCpp` |
| CglBKClique | `generateCuts`, `separateCliques`, `extendCliques`, `insertCuts`, setters, copy, memory (Model_Scratch.v) | conflict graph, clique search, extender, cut pool, clock (parameters), counters |
| CglOddWheel | `generateCuts`, setters, copy, memory (Model_Scratch.v) | separator, cut pool (parameters), reduced costs, counters |
| CglTwomir | all of CglTwomir.cpp reached by `generateCuts` without an original solver, setters | factorisation, LP data, random numbers, duplicate test (parameters), the original solver branch, cleaning of cuts on insertion, scratch arrays, test and print functions |
| CglRedSplit | CglRedSplit.cpp: `generateCuts` and all it calls without the debugging macros, parameters | LP data, basis, tableau rows, square and cube roots, duplicate test (parameters), given_optsol, test and print functions |
| CglDuplicateRow | `generateCuts`, `outDupsEtc`, `generateCuts8`, `outDuplicates`, constructors, copies, `refreshSolver` (matrix_, duplicate_) | `generateCuts4` (parameter), `generateCuts12` (not called), the part of `refreshSolver` on rhs_ and lower_, printing |
| CglLandP | `generateCuts`, CglLandPSimplex `optimize`, `generateMig`, `generateExtraCuts`, `changeBasis`, `pullTableauRow`, `createMIG`, `createIntersectionCut`, choice of rows, validator, parameters, copies | reduced costs and choice of the incoming column (parameters), `genThisBasisMigs` after the undefined read, scanExtraCuts, CachedData copies, counters of rejections, messages |
| CglCutGenerator copies | ownership of row lists and pools (Model_Copies) | timing fields |

Other directories (PreProcess, RedSplit2 generator, ...) are modelled only where a later row of the table says so.

### Parameters that stand for code outside /repo

* `sqrt`: any function; `sort`/`srt`: any function returning a sorted
  permutation; `keep`: which zero sums CoinPackedVector::operator+ drops.
* CglGMI: `binv`, the basis inverse rows (the validity theorems ask that the row
  be exact, the totality theorem asks nothing); `rat`, CoinRational (any
  function with positive denominators); `ins`,
  OsiCuts::insertIfNotDuplicateAndClean (keeps the pool, adds nothing stronger
  than the cut it is given).
* CglMixedIntegerRounding2: `ins` (OsiCuts::insertIfNotDuplicateAndClean): what it adds is
  implied by the cut given (C98), or is the cut given (C100).
* CglUniqueRowCuts and row_cut: `hash` (hashCut of OSI, below the table size) and `same` (an
  equivalence for C104).
* cliqueIt: `rnd` (random numbers, arbitrary) and `srt` (CoinSort_2, any permutation).
* someFixed: `srt` (CoinSort_2, any permutation); someFixed, reducedCostFix: what the solver
  returns, arbitrary; C117_good_points_kept asks for the optimality conditions.
* tightenPrimalBounds: `srt` (CoinSort_2 on a row, any permutation) and `tol` (the primal
  tolerance of the solver, nonnegative in the claims).
* row scaling in preProcessNonDefault: `rat` (CoinRational, arbitrary in C123, exact on the
  numbers of the problem in C124_done) and `debug` (whether assert is active).
* CglGomory: `binv`, `sqrt` (positive on positive numbers), `srt` (returns some
  of what it is given), `ins` as for CglGMI; `stale`, the value of an array
  element read before it is written (any integer).
* CglZeroHalf: `v_pick`, the element taken from the heap of the shortest path
  search (any); `v_late0`, `v_late`, when a time limit is found exceeded (any);
  `v_wrapv`, whether signed overflow wraps or is undefined; `v_debug`, whether
  assertions are compiled in.
* CglFlowCover: `debug`, whether assertions are compiled in; `ins` as for CglGMI.
* CglCliqueStrengthening: `ext`, CoinCliqueExtender (any function that extends a
  clique by literals adjacent to all others); the conflict
  graph (any sound relation); `stop`, when the time limit is found exceeded (any).
* CglLiftAndProject: `solve`, the solver clone on the cone program (any function whose
  answers satisfy the program, or are optimal for C66); `ins`; `inf`.
* CglBKClique: conflict graph (a vertex of degree two or more has a neighbour), clique
  search (pairwise adjacent positions, at least the weight asked for), `v_rank` (distinct
  positions), extender (as for CglCliqueStrengthening), cut pool (permuted copies of some
  of the cuts added), duplicate test, clock, whether assertions are on (any).
* CglOddWheel: separator (closed walks of at least five literals, half of the length as
  right-hand side, centres adjacent to each other and to the rim), cut pool.
* CglTwomir: LP point (fixed columns at their value), reduced costs, basis; factorisation
  (the multipliers for a basic integer column remove the other basic columns and use no
  row without bounds); random numbers, duplicate test, build with or without Clp (any).
* CglRedSplit: LP point (basic solution of the basis), tableau rows (`lp_ok`: combinations
  of the rows of the problem, unit columns at basic variables), sqrt and cbrt (any
  functions), duplicate test (keeps the list or appends the cut).
* CglDuplicateRow: CoinSort_2 (a permutation sorted by key), generateCuts4 (any function).
* CglLandP: the simplex interface (`exact`: in each basis that can be reached the tableau
  rows and the solution are exact and a successful pivot leads to such a basis), the
  numerical choices of the search (any), the duplicate test (keeps the list or appends).
* CglOddHole: random numbers and tie breaking of the sort are arbitrary.

## 5. Assumptions reported by Coq

`Print Assumptions` follows every theorem named in MANIFEST.json and prints
`Closed under the global context` for each: no axiom, neither of the standard
library nor of this development, is used.  (`vcheck` lists the module-type
parameters of the `ssrunder` file of Coq's own distribution among the axioms of
the libraries that are loaded; no theorem depends on them.)  Section variables in the files
are generalised when the sections close, so they appear as ordinary
quantifiers of the theorems.

## 6. Findings about the code

Each line is a theorem `..._refuted` (name in parentheses) unless marked
"read", which means seen while transcribing and recorded without a theorem.

* CglSimpleRounding: a zero coefficient after scaling reaches a division by
  zero in `gcd` (C02_generator_reaches_undefined); coefficients that
  `power10ToMakeDoubleAnInt` rounds give invalid cuts (C01_without_exact_data).
* CglStored: a cut is emitted when the violation equals the required one, the
  header says "more than" (C03_more_than); implication cuts are wrong when the
  current bounds are looser than the recorded ones (C04_with_looser_bounds); a
  truncated file makes the reader loop forever when assertions are off
  (C31_truncated_file_loops).
* CglParam: constructors accept what setters refuse (C05_constructor_unchecked).
  CglRedSplitParam::getMAXDYN returns MAXDYN_LUB (C33_getMAXDYN).
  CglRedSplit2Param::setMAX_SUPP_REL assigns the minimum violation
  (C34_setMAX_SUPP_REL_has_no_effect).
* CglTreeProbingInfo: the sentinel of `convert` equals a legal code, so one
  implication can be lost (C27_recorded_implication_lost); duplicates of
  to-upper implications stay (C27_upper_duplicates_kept); `fixColumns` reads an
  uninitialised entry without `packDown` (C29_fixColumns_without_packDown);
  `fixes` after `convert` writes at a negative index (read).
* CglClique: only the first-fit clique is examined, because the position is
  passed by reference (C08_maximal_clique_missed); an early return leaves the
  minimum violation changed (C09_early_exit); rows with columns that may be
  negative are accepted (C06_negative_column).
* CglOddHole: the public entry point works on a fresh object, so the user's
  limits have no effect (C12_user_limit); columns fixed at a nonzero value give
  invalid cuts (C10_fixed_column, C11_fixed_column); the array of rows can be
  overrun (C35_row_list_overflow); assignment from a generator without row list
  gives one that finds nothing (C36_assigned_generator_finds_nothing).
* CglAllDifferent: sets listed in a different order are translated wrongly
  (C13_unordered_sets); see also C14, C37 (five cases of undefined behaviour or
  failed assertions), C38.
* CglResidualCapacity: integer columns with tiny coefficients are dropped
  (C15_tiny_coefficient); the classification of the first model is used for
  later ones (C15_looser_bounds_later); presolve hints are ignored
  (C39_presolve_hints).
* CglKnapsackCover: see C17, C18, C19, C20, C22, C23, C40; a column cut for
  fixing is built and never inserted (read).
* CglMixedIntegerRounding: tiny coefficients dropped (C24_tiny_coefficient),
  fractional upper bounds of integer columns (C24_fractional_upper), rows of the
  first model used later (C24_changed_rows), exception when rows were removed
  (C41_fewer_rows); the constructor accepts mode 2 (C16_mir_constructor_differs).
* CglGMI: a nonbasic free column is treated as non-negative
  (C25_nonbasic_free); small coefficients on columns without the needed bound
  are dropped (C25_unbounded_small); `computeGcd` returns a negative number for
  a negative numerator, so scaling to integers reverses the cut, and the reversed
  cut can be accepted (C25_negative_scale); every cut with an integer column of
  infinite range is relaxed by 1e-8 times that range, so it says nothing
  (C42_unbounded_integer); the product of denominators can overflow (C43_overflow).
* CglProbing: an integer column without upper bound (or beyond 1e12) is given
  the bound 12345678900 and a column cut saying so (C44_reasonable_bound), and a
  row freed because of it stays freed when the bound is withdrawn
  (C46_reasonable_bound); when maximising, the objective offset enters the
  cutoff row with the wrong sign (C44_maximise_offset); strengthened rows lose
  tiny elements without regard to their sign (C44_tiny_elements); a fractional
  bound on an integer column fails an assertion (C45_fractional_bound); the
  relaxed row bounds of mode 3 are indexed by the rows of the working copy and
  shifted by fixed columns (C46_removed_row, C46_fixed_column); with a snapshot
  those arrays are handed back uninitialised (read).
* CglGomory: a mixed cut without a small common denominator is rounded to an
  invalid one (C47_mixed_cut); coefficients are rounded to integers when the
  error times the widths of the columns is small, although it is multiplied by
  the values of the columns (C47_far_columns); when all scaled coefficients
  round to zero the search for the first nonzero one leaves the array
  (C49_in_bounds); with option 16 cuts of a node are marked globally valid
  although the bounds of nonbasic columns in them are those of the node (C50_marks).
* CglZeroHalf: infinite bounds of integer columns become COIN_INT_MAX and are
  used as bounds when the solution is near that value (C51_huge_values); when
  the flag for global cuts is set after an unflagged call in a node, cuts relying
  on the node's bounds are marked globally valid (C53_marked_cuts_global); nodes
  without a path give a signed overflow (C54_no_overflow); explicit zeros fail an
  assertion, or without assertions lead to a division by zero
  (C54_explicit_zeros); a clone finds nothing before it is refreshed and
  assignment to a refreshed generator aborts (C55_copy_equivalent); refreshing
  with a problem without rows keeps the old one (C56_refresh_no_rows); a lower
  bound of an integer column above COIN_INT_MAX is cast to int (read).
* CglFlowCover: a two-entry row without bounds is taken for an equation, and the
  cut removes feasible points (C57_free_row); an equation whose two coefficients
  have the same sign gives a negative upper bound that is used once a later row
  replaces the negative lower bound (C57_same_sign); coefficients of one column
  that nearly cancel are dropped without changing the right-hand side
  (C57_exact); an explicit zero coefficient, or a lower bound just below zero,
  divides by zero or fails an assertion (C59_zero_coefficient,
  C59_tiny_lower_bound); assignment does not free the arrays it replaces, and
  the early return when all coefficients vanish leaks two arrays (read).
* CglCliqueStrengthening: two coefficients less than 1e-6 apart hide the smallest
  pair, and a row that is not a set packing row is replaced by a clique
  (C60_close_coefficients); a row forbidding one of its columns is removed as
  dominated (C61_large_coefficient); row numbers kept by the object are stale
  after a call that removed rows (C61_second_call, C63_second_call); row names
  over 251 characters overflow a buffer, an empty matrix leads to a null pointer,
  asking for a row that is no clique reads out of bounds (C63).
* CglLiftAndProject: the loop over the columns tests the type of column m (the
  number of rows) instead of its own column, so cuts are derived from columns
  that are not binary (C64_continuous_column), or never, or the array of types is
  read out of bounds (C65_canonical); gaps in the matrix shift the columns of the
  cone program (C65_gaps); cuts that are not violated are added (C66_violated);
  the solver clone and the warm starts are leaked (read).
* CglBKClique: generateCuts overwrites the limit on the number of calls with the
  number of calls made, so the limit shrinks from call to call and cuts are missed
  (C70_limit); getNumCallsBK() is never updated (C70_calls_reported); the class has a
  second maxSeconds_ of its own, and CglCutGenerator::setMaxSeconds is not virtual, so a
  time limit set through a base pointer is ignored (C70_base_limit; CglProbing has the
  same shadowing, read); on an infeasible problem an assertion fails (C71_infeasible).
* CglOddWheel: the centre gets the right-hand side left after complementing the rim, so
  with many complemented literals the wheel cut is weaker than the hole cut and need not
  be violated (C73_lifting); clones lose the settings of the base class (C74_clone); the
  constructor accepts extension methods the setter rejects (read).
* CglBKClique and CglOddWheel have no assignment operator: assigning shares the arrays
  (C75_assignment).
* CglTwomir: DGG_nicefyConstraint drops a small coefficient against the upper bound of
  the variable before it was shifted, so with negative lower bounds feasible points are
  cut off (C76_negative_bound); numbers up to 1e-10 above an integer count as that
  integer (C76_near_integer, and a cut without columns then leads to a read through a
  null pointer, C78_empty_cut); a row range up to 1e-6 counts as an equation
  (C76_small_range); 100 times a coefficient is converted to int (C78_large_coefficient);
  setFormulationRows is never read and with the default CglTreeInfo no formulation row is
  looked at (C79_formulation_rows_ignored, C79_nothing); in DGG_add2stepToList the inner
  loops reuse the counter of the outer loop, so only the first valid alpha is tried
  (read, in the model).
* CglRedSplit: a coefficient of an integer column within EPS (1 + its size) of an integer
  is kept as it is but treated as that integer (C80_near_integer); a row range below EPS
  counts as an equation and its slack is dropped (C80_small_range); a cut the solution
  satisfies is accepted, only a small positive violation is rejected (C81_not_violated);
  elements are chosen by their size after scaling, the dynamism is tested on those chosen
  before (C81_dynamism); the step of the reduction is converted to int unchecked
  (C82_step); `ind_row > nrow` in the choice of rows should be `>=` (C83_bad_read), and
  row 0 is skipped; cuts with root mean square above 10 are always rejected, since ten
  times it must not exceed 50 (read, in the model);
  rs_are_different_vectors returns the opposite of its name (debugging only).
* CglDuplicateRow: the default mode is 3, for which generateCuts returns at once
  (C85); of an inequality and a later equation on the same columns the equation is deleted
  (C86_equation_dropped); the subset test compares with the entry after the end of a row,
  which belongs to the next row or lies outside the array: rows are deleted and columns
  fixed wrongly (C86_overrun_drops_row, C86_overrun_fixes, C88_overrun); a row counts as an
  equation if its bounds rounded to int agree (C86_fractional_bound); duplicate_ is written
  without a check of its size or existence (C88_default_object); bounds are converted to
  int unchecked in one direction (C88_large_bound); copies take as many marks as matrix_
  has rows, although duplicate_ has twice the current number of rows (C89_copy_after_two).
* CglLandP: with extra cuts when a variable enters the basis, row_k_ is overwritten and the
  cut made from it is invalid (C90_when_entering); a range row met after the first call is
  not turned into an equation and its slack gets the wrong sign (C90_later_range); an
  integer column with a fractional bound gives an invalid cut (C90_fractional_bound); with
  range rows an extra cut may mention a column that does not exist, and a cut with such a
  column is replaced by one without columns, which is inserted (C90_columns_exist); so is
  the default cut when a row is longer than maximumCutLength (C91_empty_cut); minViolation
  is 0 by default and a cut the solution satisfies is inserted (C91_not_violated); the
  rule initialReducedCosts writes rowFlags_[-1] (C93_initial_rule); allViolatedMigs reads
  ncols_ and colsol_ before they are set (C93_all_violated); the validator reads bounds
  past the end for added columns (C93_added_column); an assertion of generateExtraCut fails
  for integer columns with a value of 1 or more (C93_extra_cut); after a call with range
  rows the generator never gives a cut again (C94); Parameters::operator= sets
  degeneratePivotLimit to failedPivotLimit and CglLandP::operator= does not copy numrows_
  (C95_assign, C95_assigned_object); after a failed row pivotLimit is reset to the one for
  the root, so that pivotLimitInTree is lost (in the model).
* CglMixedIntegerRounding2: with CBC_HAS_CLP, rows without an upper side are negated in a copy
  of the solver, but senses and right-hand sides of the original rows are kept unless
  doPreproc is 1: the first call can cut off every feasible point (C98_clp_default); the same
  branch returns before MAXAGGR_ is restored, so that -1 and -2 become 5 for good
  (C101_clp_loses_setting); a slack with a coefficient below 1e-6 is looked up in the arrays
  of column bounds (C99_small_slack); copies allocate rowTypes_ twice as long but copy only
  the first half, from which the row types are put back after an aggregation
  (C102_used_copy); a solver with fewer rows than were preprocessed (C99_fewer_rows).
* row_cut (CglProbing) and CglUniqueRowCuts: a slot in use by a different cut is overwritten,
  since the test for an empty slot (`ipos == jpos`) also holds when the chain has one link; so
  chains never form, and of two cuts in one slot the older is forgotten and stored again
  (C104_unique); `row_cut::addCuts` with more than nRows_ cuts compares the effectiveness,
  which is never stored and thus 0, with the negated effectiveness: all cuts of the pass are
  lost (C107_just_best); `CglUniqueRowCuts`: a multiplier of 0 (C103_multiplier_zero), erasing
  the only or the last cut (C105_erase_last), stale slots after erasing or addCuts
  (C105_insert_after_erase, C106_insert_after_add_cuts), copies of unset pointers
  (C106_copy).
* cliqueIt: CglBK::bronKerbosch counts the neighbours of the pivot with repetitions when two
  columns share several rows; the count can reach the number of candidates although some
  candidate is no neighbour, the branches are then left out, maximal cliques are missed and
  yet the rows sharing two columns with a found clique are deleted, so the new problem has
  more feasible points (C109_same_points, C110_all); CglBK::operator= sizes its array by the
  old numberPossible_ (C113_assigned_to_new).
* makeInteger: for an equality row with two continuous columns the column jColumn1 is gone
  through twice, jColumn2 never, so that a column is made integer which other rows do not
  allow: a feasible problem becomes infeasible (C114_pairs); the array `which` is too short
  when zeros are stored in the matrix (C115_stored_zeros).
* someFixed reads `upper[number]` where `upper[i]` is meant, beyond the array when every column
  was picked (C118_outside), and sets the lower bound of a column at its upper bound to the
  lower bound, so that such columns are never fixed (C118_at_upper, C118_discard).
* passInProhibited with no array when one of the same length is there (C119_none).
* reducedCostFix rounds no bounds: a fractional lower bound becomes the value of an integer
  column (C117_fractional).
* tightenPrimalBounds sets both bounds of a continuous column to zero when both are below 1e-8
  in absolute value, which loses feasible points when coefficients are large (C120_points_lost),
  and frees a row using a bound that it relaxes by 1e-5 afterwards (C120_points_gained). It
  ignores the return value of `tighten`, and when it finds infeasibility it restores the bounds
  of the first stage, not those given.
* preProcessNonDefault, scaling of rows: a multiplier below 1e-12 is rounded to 0 (C124_large:
  assertion, or an empty row without assertions); stored zeros fail an assertion
  (C124_stored_zero); lcm may overflow (C124_overflow); when the scaling is given up after
  scaleRowIntegral has rounded the array, and the signs are changed, the row copy gets the
  scaled coefficients and the problem the given ones (C124_copy).
* analyze: columns counted as made integer stay continuous when their rounded bounds are equal
  (C126_count); with large integer columns the tolerance 1e-12 on coefficients makes it return
  -1, so that the problem is reported infeasible, though a point is feasible
  (C126_infeasible_refuted). Markers are set even if -1 is returned.
* createOriginalIndices sorts the columns: with a presolve that changes the order of columns the
  answer is no longer by place (C128_order); a missing presolve below another is dereferenced
  (C128_gap).
* update: scBound is only moved if there are prohibited columns (C129_bounds), so that the
  bounds of lot sizing columns belong to other columns after a presolve without them.
