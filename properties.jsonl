{"id": "C01", "title": "Simple rounding cuts keep every integer point", "statement": "Every row cut that CglSimpleRounding::generateCuts adds is satisfied by every point that satisfies the rows, the column bounds and the integrality requirements of the model it was called on, provided every row the generator processes has coefficients (and continuous-bound products) that are exact decimal fractions at the power of ten the generator picks; without that proviso the claim is false.", "quantifier": "all MIP models (any number of rows/columns, any rational data), all epsilons > 0, all feasible points", "why_tests_cant": "Validity is a statement about all (in general infinitely many) mixed-integer points of every instance; a test looks at one instance and at most the optimum of that instance.", "anchors": ["src/CglSimpleRounding/CglSimpleRounding.cpp: CglSimpleRounding::generateCuts, deriveAnIntegerRow, power10ToMakeDoubleAnInt", "src/CglSimpleRounding/CglSimpleRounding.hpp: gcd, gcdv"]}
{"id": "C02", "title": "Simple rounding divides by the true greatest common divisor", "statement": "For every non-empty list of positive integers the divisor used by the simple rounding generator is the greatest common divisor of the list: it divides each entry, every common divisor divides it, and the computation terminates; hence the coefficients of every emitted cut are integers with no common factor. A zero entry makes the division remainder undefined.", "quantifier": "all non-empty integer vectors of any length", "why_tests_cant": "The number of integer vectors is unbounded and termination is about every input.", "anchors": ["src/CglSimpleRounding/CglSimpleRounding.hpp: gcd, gcdv"]}
{"id": "C03", "title": "A stored cut pool emits exactly the cuts that are violated enough", "statement": "CglStored::generateCuts called with an LP solution x adds exactly those stored row cuts whose violation at x is at least the required violation, in the order in which they were stored, and leaves the pool unchanged; so calling it on any history of addCut calls never loses, invents or reorders a cut.", "quantifier": "all histories of addCut / setRequiredViolation / generateCuts calls and all LP solutions", "why_tests_cant": "The claim ranges over unbounded call histories and all solution vectors.", "anchors": ["src/CglCommon/CglStored.cpp: CglStored::generateCuts, addCut", "src/CglCommon/CglStored.hpp: setRequiredViolation"]}
{"id": "C04", "title": "Cuts from recorded implications are implied by them", "statement": "Every two-variable cut that CglStored::generateCuts derives from attached probing information is satisfied by every point that lies within the current column bounds, has the 0-1 variables integral and respects the recorded implications (variable at 0/1 forces another variable to its lower/upper bound).", "quantifier": "all probing tables, bounds, LP solutions and points", "why_tests_cant": "Validity is a statement about all (in general infinitely many) mixed-integer points of every instance; a test looks at one instance and at most the optimum of that instance.", "anchors": ["src/CglCommon/CglStored.cpp: CglStored::generateCuts (probingInfo_ part)"]}
{"id": "C05", "title": "Setters never leave a parameter outside its documented domain", "statement": "After any sequence of calls of the CglParam setters with arbitrary IEEE doubles (including NaN, infinities, negative zero) and arbitrary ints, INFINIT is > 0, EPS and EPS_COEFF are >= 0 and MAX_SUPPORT is > 0, provided the constructor arguments were; every call either stores exactly the given value or leaves the object unchanged.", "quantifier": "all call sequences and all 64-bit floating point arguments", "why_tests_cant": "There are 2^64 arguments per setter and unbounded sequences.", "anchors": ["src/CglCommon/CglParam.cpp: setINFINIT, setEPS, setEPS_COEFF, setMAX_SUPPORT"]}
{"id": "C06", "title": "Clique cuts keep every integer point", "statement": "Every row cut CglClique::generateCuts adds is satisfied by every feasible integer point of the model, whatever the LP solution, whichever rows are selected and whichever of the star / row methods and search strategies is on, provided columns appearing with positive coefficient in the set-packing rows cannot take negative values. Without the proviso the claim is false.", "quantifier": "all models, all LP solutions, all option settings, all feasible points", "why_tests_cant": "Validity is a statement about all (in general infinitely many) mixed-integer points of every instance; a test looks at one instance and at most the optimum of that instance.", "anchors": ["src/CglClique/CglClique.cpp: generateCuts, find_scl, find_rcl, enumerate_maximal_cliques, greedy_maximal_clique, recordClique, selectRowCliques"]}
{"id": "C07", "title": "Clique cuts are violated by at least the tolerance and have the clique form", "statement": "Every clique cut emitted has the form sum of x_j over C <= 1 with C a set of distinct binary columns that are fractional in the LP solution, listed in increasing order, and the LP solution violates it by at least the minimum violation in force. C has at least three members whenever the LP solution satisfies rows and bounds. (Violation by strictly more than the tolerance is false.)", "quantifier": "all models, LP solutions and tolerances", "why_tests_cant": "Ranges over all LP solutions and all clique graphs.", "anchors": ["src/CglClique/CglClique.cpp: recordClique, enumerate_maximal_cliques, greedy_maximal_clique"]}
{"id": "C08", "title": "Complete clique enumeration misses no maximal clique", "statement": "When the complete enumeration is used on a candidate list (CglClique.hpp: 'allow complete enumeration of maximal cliques'), every maximal clique of the candidate graph that, together with the fixed star or row node set, has value at least 1 plus the tolerance is recorded; and the enumeration terminates. (The completeness part is false in the code; termination and the exact result, one maximal clique, are proved.)", "quantifier": "all graphs and all weights", "why_tests_cant": "Completeness is a statement about every maximal clique of every graph.", "anchors": ["src/CglClique/CglClique.cpp: enumerate_maximal_cliques"]}
{"id": "C09", "title": "generateCuts does not change the clique generator's minimum violation", "statement": "getMinViolation returns the same value before and after generateCuts. (False on the early-exit path for large or tiny fractional problems when the tolerance was left unset; the theorem characterises exactly when it holds.)", "quantifier": "all generator states and all models", "why_tests_cant": "Depends on which of several exit paths is taken for arbitrary models.", "anchors": ["src/CglClique/CglClique.cpp: CglClique::generateCuts", "src/CglClique/CglClique.hpp: setMinViolation, getMinViolation"]}
{"id": "C10", "title": "Odd hole packing cuts keep every integer point", "statement": "Every packing-type (<=) cut of CglOddHole::generateCuts is satisfied by every feasible integer point, for any LP solution, row list, reduced costs and random numbers, when every column in a row whose bounds coincide is fixed at zero; the claim is false when columns fixed at other values occur.", "quantifier": "all models, LP solutions and row subsets", "why_tests_cant": "Validity is a statement about all (in general infinitely many) mixed-integer points of every instance; a test looks at one instance and at most the optimum of that instance.", "anchors": ["src/CglOddHole/CglOddHole.cpp: CglOddHole::generateCuts, createRowList"]}
{"id": "C11", "title": "Odd hole covering cuts keep every integer point", "statement": "Every covering-type (>=) cut of CglOddHole::generateCuts is satisfied by every feasible integer point under the same proviso as C10; and the claim is false without it.", "quantifier": "all models, LP solutions and row subsets", "why_tests_cant": "Validity is a statement about all (in general infinitely many) mixed-integer points of every instance; a test looks at one instance and at most the optimum of that instance.", "anchors": ["src/CglOddHole/CglOddHole.cpp: CglOddHole::generateCuts, createRowList"]}
{"id": "C12", "title": "Odd hole settings stay in range but never influence generateCuts", "statement": "After any sequence of setter calls the reported limits lie in their documented ranges; generateCuts behaves as with the default limits whatever was set (the public entry point runs a freshly constructed object); every new cut has at most 100 entries and is violated by at least 1/1000. So a cut violated by less than the limit the user set can be emitted.", "quantifier": "all setter histories, all models", "why_tests_cant": "Unbounded setter histories.", "anchors": ["src/CglOddHole/CglOddHole.cpp: CglOddHole::generateCuts (public overload)", "setMinimumViolation, setMinimumViolationPer, setMaximumEntries"]}
{"id": "C13", "title": "All-different bound tightening loses no solution", "statement": "Let the sets given to CglAllDifferent be one single set, or name all columns once in increasing order before any column is named again. Then every column cut generateCuts adds is satisfied by every integer point within the column bounds that is pairwise different on every set. (With any other listing a solution can be cut off.)", "quantifier": "all set systems, all bounds, all integer points", "why_tests_cant": "Validity is a statement about all (in general infinitely many) mixed-integer points of every instance; a test looks at one instance and at most the optimum of that instance.", "anchors": ["src/CglAllDifferent/CglAllDifferent.cpp: CglAllDifferent::CglAllDifferent, generateCuts"]}
{"id": "C14", "title": "All-different infeasibility verdicts are correct", "statement": "Under the same proviso on the listing of the sets, if generateCuts reports infeasibility (adds a row cut no point satisfies) then no integer point within the bounds is pairwise different on every set; it never adds any other row cut. (With overlapping sets listed otherwise the verdict can be wrong.)", "quantifier": "all set systems and bounds", "why_tests_cant": "Validity is a statement about all (in general infinitely many) mixed-integer points of every instance; a test looks at one instance and at most the optimum of that instance.", "anchors": ["src/CglAllDifferent/CglAllDifferent.cpp: CglAllDifferent::CglAllDifferent, generateCuts"]}
{"id": "C15", "title": "Residual capacity cuts keep every mixed-integer point", "statement": "In every history of setter, refresh and generateCuts calls, every cut a CglResidualCapacity::generateCuts call adds is satisfied by every feasible mixed-integer point of the model of that call, for any LP solution, provided that model has the same rows as, and bounds within those of, the models of the earlier calls, and no nonzero datum is below the tolerance. (Both provisos are needed.)", "quantifier": "all call histories, all models, all LP solutions, all feasible points", "why_tests_cant": "Validity is a statement about all (in general infinitely many) mixed-integer points of every instance; a test looks at one instance and at most the optimum of that instance.", "anchors": ["src/CglResidualCapacity/CglResidualCapacity.cpp: generateCuts, treatAsLessThan, determineRowType, generateResCapCuts, resCapSeparation"]}
{"id": "C16", "title": "Preprocessing mode setters accept exactly -1, 0 and 1", "statement": "In CglResidualCapacity and CglMixedIntegerRounding, setDoPreproc(v) succeeds and makes v the mode exactly when v is -1, 0 or 1; otherwise it throws and the generator is unchanged; the reported flag is true exactly when the mode is non-zero.", "quantifier": "all ints and all call sequences", "why_tests_cant": "Unbounded call histories and all ints.", "anchors": ["src/CglResidualCapacity/CglResidualCapacity.cpp: setDoPreproc, getDoPreproc", "src/CglMixedIntegerRounding/CglMixedIntegerRounding.cpp: setDoPreproc, getDoPreproc"]}
{"id": "C17", "title": "The knapsack derived from a row is implied by the row", "statement": "When the knapsack cover generator derives a knapsack from a row whose coefficients exceed 1e-7 in absolute value, every point within bounds that satisfies the row satisfies the knapsack after complementing the flagged columns; all knapsack coefficients are positive and at most the right-hand side; and an infeasibility column cut is only added when the row admits no point within bounds. (Without the size condition the first part is false: refuted.)", "quantifier": "all rows, bounds, senses and points", "why_tests_cant": "Validity is a statement about all (in general infinitely many) mixed-integer points of every instance; a test looks at one instance and at most the optimum of that instance.", "anchors": ["src/CglKnapsackCover/CglKnapsackCover.cpp: deriveAKnapsack"]}
{"id": "C18", "title": "Exact knapsack solver returns the optimum", "statement": "For items with positive weights and non-negative integral profits sorted by non-increasing profit/weight ratio, the branch-and-bound routine terminates and returns a 0-1 vector of maximal profit among all vectors fitting in the capacity (enlarged by the tolerance 1e-5), together with that profit. With any profits the vector returned fits and is worth the profit reported. (Optimality is false for fractional or negative profits: refuted.)", "quantifier": "all item lists of any length and all capacities", "why_tests_cant": "Optimality and termination over all item lists.", "anchors": ["src/CglKnapsackCover/CglKnapsackCover.cpp: exactSolveKnapsack"]}
{"id": "C19", "title": "Sequence-independent lifted cover cuts are valid", "statement": "For any knapsack and any cover sorted by non-increasing weight which stops being a cover when its heaviest item is removed, with weights on a common grid coarser than the tolerance, the cut produced by sequence-independent lifting is satisfied by every 0-1 point of the knapsack. (Both provisos are needed: refuted without them.)", "quantifier": "all knapsacks, covers and 0-1 points", "why_tests_cant": "Validity is a statement about all (in general infinitely many) mixed-integer points of every instance; a test looks at one instance and at most the optimum of that instance.", "anchors": ["src/CglKnapsackCover/CglKnapsackCover.cpp: liftCoverCut"]}
{"id": "C20", "title": "Up- and down-lifted cover cuts are valid", "statement": "The cut obtained by sequential up-lifting and down-lifting cuts off the LP solution and is satisfied by every 0-1 point of the knapsack, for every partition into cover, at-one and remainder items whose LP values are exact ones, or whose cover is minimal up to the tolerance. (False when values slightly below one count as ones: refuted.)", "quantifier": "all knapsacks, partitions into cover, at-one and remainder, and all 0-1 points", "why_tests_cant": "Validity is a statement about all (in general infinitely many) mixed-integer points of every instance; a test looks at one instance and at most the optimum of that instance.", "anchors": ["src/CglKnapsackCover/CglKnapsackCover.cpp: liftUpDownAndUncomplementAndAdd"]}
{"id": "C21", "title": "Undoing the complementation preserves the cut", "statement": "Rewriting a cut from complemented to original variables gives an inequality equivalent to the complemented one at every point.", "quantifier": "all cuts, all complementation patterns, all points", "why_tests_cant": "Validity is a statement about all (in general infinitely many) mixed-integer points of every instance; a test looks at one instance and at most the optimum of that instance.", "anchors": ["src/CglKnapsackCover/CglKnapsackCover.cpp: liftAndUncomplementAndAdd, liftUpDownAndUncomplementAndAdd, seqLiftAndUncomplementAndAdd"]}
{"id": "C22", "title": "The covers found are covers", "statement": "Each of the cover search routines that reports success returns a set of items whose total weight exceeds the capacity and which, with the returned remainder (and at-one) lists, partitions the items of the knapsack. (For the exact search the weight only exceeds the capacity less 1e-5: refuted, and with capacities near the tolerance it reads outside its array: refuted.)", "quantifier": "all knapsacks and LP solutions", "why_tests_cant": "Ranges over all knapsacks and LP solutions.", "anchors": ["src/CglKnapsackCover/CglKnapsackCover.cpp: findGreedyCover, findLPMostViolatedMinCover, findExactMostViolatedMinCover, findPseudoJohnAndEllisCover, findJohnAndEllisCover"]}
{"id": "C23", "title": "Restricting the rows to be tested is memory safe", "statement": "Any sequence of setTestedRowIndices calls, copies, assignments and generateCuts calls on a knapsack cover generator uses only live memory. (Refuted for a call with a non-positive count after a positive one; proved for histories without it.)", "quantifier": "all call histories", "why_tests_cant": "Unbounded histories; a use-after-free may go unnoticed in a test.", "anchors": ["src/CglKnapsackCover/CglKnapsackCover.cpp: setTestedRowIndices, operator=, copy constructor, destructor"]}
{"id": "C24", "title": "Mixed integer rounding cuts keep every mixed-integer point", "statement": "Every cut CglMixedIntegerRounding::generateCuts adds is satisfied by every feasible mixed-integer point of the model, for every LP solution, every aggregation depth, with or without the multiplied row, and each of the three bound-substitution criteria.", "quantifier": "all models (data not below tolerance), all parameters, LP solutions, feasible points", "why_tests_cant": "Validity is a statement about all (in general infinitely many) mixed-integer points of every instance; a test looks at one instance and at most the optimum of that instance.", "anchors": ["src/CglMixedIntegerRounding/CglMixedIntegerRounding.cpp: generateMirCuts, copyRowSelected, aggregateRow, boundSubstitution, cMirSeparation, cMirInequality, functionG"]}
{"id": "C25", "title": "Gomory mixed-integer cuts keep every mixed-integer point", "statement": "Given an exact row of the optimal simplex tableau, every cut CglGMI derives is satisfied by every feasible mixed-integer point, through sign flips for nonbasic variables at upper bound, slack elimination and every cut cleaning procedure, provided removed small coefficients belong to variables bounded in the needed direction.", "quantifier": "all models, bases, tableau rows, cleaning procedures and parameters", "why_tests_cant": "Validity is a statement about all (in general infinitely many) mixed-integer points of every instance; a test looks at one instance and at most the optimum of that instance.", "anchors": ["src/CglGMI/CglGMI.cpp: generateCuts, computeCutFractionality, computeCutCoefficient, flip, unflipOrig, unflipSlack, eliminateSlack, cleanCut, removeSmallCoefficients, relaxRhs, scaleCut"]}
{"id": "C26", "title": "Implication entries round-trip", "statement": "Storing a column number below 2^31 and a direction flag in a clique entry and reading them back gives the same values, in any order of the two stores, and storing one never disturbs the other.", "quantifier": "all 32-bit words, all column numbers below 2^31, all store orders", "why_tests_cant": "2^64 combinations of old word and new values.", "anchors": ["src/CglCommon/CglTreeInfo.hpp: sequenceInCliqueEntry, setSequenceInCliqueEntry, oneFixesInCliqueEntry, setOneFixesInCliqueEntry"]}
{"id": "C27", "title": "Recorded implications survive sorting and packing", "statement": "After any sequence of recorded implications (up to the capacity limit), the ordered table read through toZero/toOne/fixEntries contains exactly the recorded implications, each under the right variable and direction.", "quantifier": "all recording histories", "why_tests_cant": "Unbounded histories.", "anchors": ["src/CglCommon/CglTreeInfo.cpp: CglTreeProbingInfo::fixes, convert, packDown"]}
{"id": "C28", "title": "Copies of a generator are independent and equal", "statement": "A cut pool or knapsack cover generator copied or assigned at any point of any history gives the same answers as its source at the time of copying, later changes to one do not affect the other, and no operation touches freed memory.", "quantifier": "all call histories before and after copying", "why_tests_cant": "Aliasing shows only for particular interleavings of unbounded histories.", "anchors": ["src/CglCommon/CglStored.cpp: copy constructor, operator=, destructor, saveStuff", "src/CglCommon/CglStored.hpp: setProbingInfo, setRequiredViolation", "src/CglKnapsackCover/CglKnapsackCover.cpp: copy constructor, operator=, destructor, setTestedRowIndices"]}
{"id": "C29", "title": "Fixing columns from recorded implications loses no solution", "statement": "After any sequence of calls recording implications between columns, packing the tables and asking the probing information to fix columns on a solver leaves bounds that are never looser than before, keeps every point that satisfies the recorded implications and the old bounds, and reports infeasibility (-1) only if no such point exists.", "quantifier": "every model (column types), every history of fixes() calls, every pair of bound arrays within [0,1] on 0-1 columns", "why_tests_cant": "the number of call histories and bound patterns is unbounded, and a lost solution only shows on the points a test happens to try", "anchors": ["src/CglCommon/CglTreeInfo.cpp: CglTreeProbingInfo::fixColumns, packDown, fixes, convert"]}
{"id": "C30", "title": "Cuts generated from recorded implications are valid", "statement": "Row and column cuts produced by the probing information's own cut generation hold at every point that satisfies the recorded implications and the current 0-1 bounds.", "quantifier": "every model, every history of fixes() calls, every LP solution and every pair of 0/1 bound arrays", "why_tests_cant": "validity is a statement about all integer points; tests sample a few", "anchors": ["src/CglCommon/CglTreeInfo.cpp: CglTreeProbingInfo::generateCuts, packDown, fixes"]}
{"id": "C31", "title": "A cut pool read from a file contains the file's cuts", "statement": "Constructing a cut pool from a complete file of cut records (ended by a negative count) gives exactly the cuts of the file, in file order, with the default violation threshold. A file cut off before its end marker is outside the claim: a release build never finishes reading it.", "quantifier": "every list of cuts in the file, every amount of garbage after the end marker", "why_tests_cant": "tests use one file; the claim is about every file length", "anchors": ["src/CglCommon/CglStored.cpp: CglStored(const char*)"]}
{"id": "C32", "title": "GMI parameter setters accept exactly the documented values", "statement": "After any sequence of setter calls on a default GMI parameter object, each getter returns the last value in the documented range that was passed to its setter, or the default; values out of range and NaN leave the object unchanged; the ranges hold at all times.", "quantifier": "every finite sequence of setter calls with any doubles (NaN and infinities included), ints and flags", "why_tests_cant": "infinitely many call sequences and double values", "anchors": ["src/CglGMI/CglGMIParam.cpp: all setters", "src/CglGMI/CglGMIParam.hpp: getters"]}
{"id": "C33", "title": "Reduce-and-split parameter setters accept exactly the documented values", "statement": "After any sequence of setter calls on a default reduce-and-split parameter object, each getter returns the last value in the documented range that was passed to its setter, or the default. (For getMAXDYN this is false in the code: it returns the LUB variant.)", "quantifier": "every finite sequence of setter calls with any doubles and ints", "why_tests_cant": "infinitely many call sequences and double values", "anchors": ["src/CglRedSplit/CglRedSplitParam.cpp: all setters", "src/CglRedSplit/CglRedSplitParam.hpp: getters"]}
{"id": "C34", "title": "Second reduce-and-split parameter setters accept exactly the documented values", "statement": "After any sequence of setter, add and reset calls on a default object, each getter returns the last value in the documented range passed to its setter (a negative time limit gives 0), and the strategy lists contain only real strategies. (For the relative support limit this is false in the code: its setter changes the minimum violation instead.)", "quantifier": "every finite sequence of setter, add and reset calls", "why_tests_cant": "infinitely many call sequences and double values", "anchors": ["src/CglRedSplit2/CglRedSplit2Param.cpp: all setters and add functions", "src/CglRedSplit2/CglRedSplit2Param.hpp: getters and reset functions"]}
{"id": "C35", "title": "Odd hole search terminates and stays inside its work arrays", "statement": "For every model, LP solution and setting, CglOddHole::generateCuts terminates and performs no out-of-bounds access. (Termination holds; the memory-safety part is false: the rows of a cycle are written to an array with one cell per model row without a bound check, and covering rows can repeat.)", "quantifier": "all models, LP solutions and settings", "why_tests_cant": "Termination of a label-correcting search over all graphs and costs, and absence of overflow for all cycles.", "anchors": ["src/CglOddHole/CglOddHole.cpp: CglOddHole::generateCuts (second overload)"]}
{"id": "C36", "title": "Copies of an odd hole generator behave like the original", "statement": "A copy-constructed or assigned CglOddHole yields the same cuts and reports the same settings as the original. (False for assignment from an object without row list: the copy has an empty list and finds nothing.)", "quantifier": "all generators, models and LP solutions", "why_tests_cant": "Equality of behaviour over all models.", "anchors": ["src/CglOddHole/CglOddHole.cpp: copy constructor, operator=, generateCuts"]}
{"id": "C37", "title": "All-different propagation ends and stays inside its tables", "statement": "For every non-empty list of sets with a non-empty first set, no column twice in a set, existing columns with int bounds and at most ten million column-value pairs, CglAllDifferent::generateCuts returns, without any out-of-bounds access or overflow, whether or not a solution exists. With assertions compiled in, none fails if the sets have a solution and are listed as in C13. (Each condition is needed.)", "quantifier": "all set systems, bounds and cut collections", "why_tests_cant": "Termination of a backtracking search nested in a fixpoint loop is a statement about unboundedly many instances; a test that ends says nothing about the others.", "anchors": ["src/CglAllDifferent/CglAllDifferent.cpp: CglAllDifferent::CglAllDifferent, generateCuts"]}
{"id": "C38", "title": "All-different bounds are attained after propagation", "statement": "If all listed bounds lie in a range of fewer than thirty values, the sets are listed as in C13 and generateCuts does not report infeasibility, then for every set and every column in it each bound that holds after the call is attained by an integer point within all bounds that is pairwise different on that set.", "quantifier": "all set systems and bounds, all columns", "why_tests_cant": "It says that no further tightening from any single set is possible, a statement about all assignments of every instance.", "anchors": ["src/CglAllDifferent/CglAllDifferent.cpp: CglAllDifferent::CglAllDifferent, generateCuts"]}
{"id": "C39", "title": "When earlier calls influence residual capacity and mixed integer rounding cuts", "statement": "With preprocessing mode 1, and in every mode directly after the prepared data is refreshed (refreshPrep, refreshSolver), generateCuts of CglResidualCapacity and CglMixedIntegerRounding gives the cuts a new generator with the same parameters would give; in every mode repeated calls on the same model with the same row activities do too. (The presolve hints, meant to force the preprocessing to be redone in mode -1, have no effect: refuted.)", "quantifier": "all generator states, models and calls", "why_tests_cant": "Staleness of cached data shows only for particular sequences of calls on different models.", "anchors": ["src/CglResidualCapacity/CglResidualCapacity.cpp: generateCuts, resCapPreprocess, refreshPrep, setDoPreproc", "src/CglMixedIntegerRounding/CglMixedIntegerRounding.cpp: generateCuts, refreshSolver, mixIntRoundPreprocess"]}
{"id": "C40", "title": "Knapsack cover generation keeps every feasible point", "statement": "Every row cut CglKnapsackCover::generateCuts adds is satisfied by every feasible mixed-integer point of the model, and no column cut is added, for every LP-feasible solution with exact ones, integral row data and integral variable bounds, in every mode (row list, expensive cuts, pass number, variable upper bound substitution). (False for points that violate the LP rows: refuted.)", "quantifier": "all models with integral data, LP solutions, settings, sorting orders and feasible points", "why_tests_cant": "Validity is a statement about all mixed-integer points of every instance, through every combination of derivation, substitution, cover search and lifting.", "anchors": ["src/CglKnapsackCover/CglKnapsackCover.cpp: generateCuts, deriveAKnapsack, liftAndUncomplementAndAdd, liftUpDownAndUncomplementAndAdd"]}
{"id": "C41", "title": "Mixed integer rounding calls do not throw and give violated cuts", "statement": "CglMixedIntegerRounding::generateCuts returns normally on every well-formed model, for every parameter setting and every LP solution, after any sequence of earlier calls on models whose rows this model keeps (with further rows added or not); and each cut it adds is violated by the LP solution by more than 1e-4 times its Euclidean norm and has no coefficient of absolute value 1e-12 or less. (False if rows were removed after the first call: refuted.)", "quantifier": "all models, parameters, histories, LP solutions", "why_tests_cant": "The aggregation and substitution depend on the LP solution; no finite set of instances shows that a packed vector never gets the same index twice.", "anchors": ["src/CglMixedIntegerRounding/CglMixedIntegerRounding.cpp: generateCuts, generateMirCuts, cMirSeparation"]}
{"id": "C42", "title": "Gomory mixed-integer cuts are violated by the LP solution", "statement": "Every cut CglGMI::generateCuts adds is violated by the LP solution by at least the minimum-violation parameter (relative to the right-hand side when that exceeds 1 in absolute value), for every cleaning procedure except the reduce-and-split one, whenever no integer column ranges over more than 10; before cleaning the violation is exactly the fractional part of the basic column. (Without the range condition the claim is false: cuts are relaxed by 1e-8 times the range of each integer column, and a cut with an integer column of infinite range is satisfied by every point: refuted.)", "quantifier": "all models, bases, LP solutions, parameter settings, cuts already in the pool", "why_tests_cant": "Whether a cut survives cleaning depends on the tableau; a test sees a handful of bases.", "anchors": ["src/CglGMI/CglGMI.cpp: generateCuts, cleanCut, checkViolation, relaxRhs"]}
{"id": "C43", "title": "Gomory mixed-integer cut generation finishes", "statement": "CglGMI::generateCuts finishes, without ending the process and without undefined behaviour, for every model, basis (exact or not), LP solution and parameter setting, except that the product of denominators may overflow when cuts are scaled to integers; the greatest common divisor used there is correct up to sign and its computation ends. (The overflow occurs: refuted.)", "quantifier": "all models, bases, LP solutions, parameter settings; all pairs of integers for the greatest common divisor", "why_tests_cant": "Termination and absence of undefined behaviour over all inputs.", "anchors": ["src/CglGMI/CglGMI.cpp: generateCuts, scaleCutIntegral, computeGcd"]}
{"id": "C44", "title": "Bound tightening by CglProbing loses no solution", "statement": "With probing itself switched off (maxProbe 0, no snapshot, no clique information) CglProbing::generateCuts and generateCutsAndModify report infeasibility only when no feasible point of moderate size within the cutoff exists; every such point satisfies the column cuts, the row cuts, tightLower()/tightUpper() and the strengthened rows put into info->strengthenRow (unless tiny elements were dropped from them). (Without 'of moderate size' it is false, as integer columns without bounds are given the bound 12345678900; with a maximisation and a nonzero objective offset it is false; with tiny elements it is false: all refuted.)", "quantifier": "all models with any number of rows and columns, all LP solutions, objectives, cutoffs, offsets, tolerances, pass limits, element limits", "why_tests_cant": "The loop over rows repeats with changing bounds; a lost solution would show only on particular data.", "anchors": ["src/CglProbing/CglProbing.cpp: gutsOfGenerateCuts, tighten, generateCuts, generateCutsAndModify"]}
{"id": "C45", "title": "Bound tightening by CglProbing always returns", "statement": "In the same setting the calls always return, for every model whose integer columns have integral bounds, whatever the number of passes asked for: no assertion fails and no work array (changed columns, rows to be looked at) is overrun. (With a fractional bound on an integer column an assertion fails: refuted.)", "quantifier": "all models with integral bounds on integer columns, all other inputs", "why_tests_cant": "Absence of array overruns and of failed assertions for all inputs.", "anchors": ["src/CglProbing/CglProbing.cpp: gutsOfGenerateCuts, tighten"]}
{"id": "C46", "title": "Rows relaxed by CglProbing in mode 3 are implied by the tightened bounds", "statement": "After generateCutsAndModify in mode 3 the entry of a row in relaxedRowLower()/relaxedRowUpper() is its original bounds, or the row has been freed and every point of moderate size within tightLower()/tightUpper() satisfies it, up to ten times the tolerance plus 1e-4 times the absolute values of the coefficients of integer columns; this holds when no row is free or too long, no column is fixed and no objective row is used. (Each of these provisos is needed: fixed columns shift the bounds, removed rows shift the indices, and rows are freed because of a bound that is withdrawn afterwards: refuted.)", "quantifier": "all models, all points, all tolerances up to 1, any number of passes", "why_tests_cant": "Relates two arrays over all points within the bounds.", "anchors": ["src/CglProbing/CglProbing.cpp: tighten, generateCutsAndModify, relaxedRowLower, relaxedRowUpper"]}
{"id": "C47", "title": "CglGomory never cuts off an integer solution", "statement": "Every row or column cut that CglGomory::generateCuts adds is satisfied by every feasible point of the model, provided the LP solution is the exact vertex of the basis: for models with integer data, bounded columns (bounds of the integer columns summing to less than 10^6) and basis-inverse rows of denominator below 10^4 without further condition; in general for points of moderate size, when no quantity falls inside a tolerance and the rational stage gets integer columns only, at least six columns or a common denominator below 10^8. With the option for global cuts no integer column may be fixed. (Without a common denominator a mixed cut is rounded to an invalid one; with integer columns far from zero a pure cut is: both refuted.)", "quantifier": "all models, bases, LP solutions, parameters, limits, orders of the candidates, any number of rows and columns", "why_tests_cant": "A cut that loses a solution shows only on particular data, often not in the optimum.", "anchors": ["src/CglGomory/CglGomory.cpp: generateCuts (both), nearestRational, gcd, above_integer"]}
{"id": "C48", "title": "Every CglGomory cut says something new", "statement": "Without the option that sorts the candidates (256), every row cut that CglGomory::generateCuts adds is violated by the current LP solution by at least 1e-7, or is the contradictory empty cut; every column cut moves exactly one bound of one integer column to an integer strictly inside the old one.", "quantifier": "all inputs without exception", "why_tests_cant": "Quantifies over all bases and solutions.", "anchors": ["src/CglGomory/CglGomory.cpp: generateCuts"]}
{"id": "C49", "title": "CglGomory always returns", "statement": "CglGomory::generateCuts neither loops nor fails the check in its rational stage: for every input it returns, or overflows in the rational approximation, or reads past the end of its integer array. The read cannot happen when all columns are bounded; neither can happen for integer data with basis-inverse rows of denominator below 10^4. (The read does happen for a cut all of whose scaled coefficients are below one half: refuted.)", "quantifier": "all inputs", "why_tests_cant": "Absence of undefined behaviour and of endless loops for all inputs.", "anchors": ["src/CglGomory/CglGomory.cpp: generateCuts, nearestRational, gcd"]}
{"id": "C50", "title": "Cuts that CglGomory marks as globally valid are", "statement": "A row cut that CglGomory::generateCuts marks as globally valid is satisfied by every feasible point of the original problem, whatever restriction of the bounds the call was made on.", "quantifier": "all original problems, all restrictions, all calls with any options", "why_tests_cant": "Relates a cut from a node to all solutions of another problem.", "anchors": ["src/CglGomory/CglGomory.cpp: generateCuts", "src/CglCommon/CglTreeInfo.hpp: options"]}
{"id": "C51", "title": "CglZeroHalf never cuts off an integer solution", "statement": "Every cut that CglZeroHalf::generateCuts adds is satisfied by every feasible point of the problem the generator was last refreshed with, restricted to the bounds of the solver the call is made on (or, with the flag for global cuts, to the bounds held since the last refresh or unflagged call), after any history of refreshes, parameter changes, copies and calls. Coefficients may not be nearly but not exactly integer, and no integer column of the LP solution may be within one of COIN_INT_MAX. (Near COIN_INT_MAX it fails, because infinite bounds are replaced by that number: refuted.)", "quantifier": "all problems, all histories, all LP solutions, any choice among equally near nodes of the shortest path search, any moment at which time limits strike", "why_tests_cant": "A cut that loses a solution shows only on particular data.", "anchors": ["src/CglZeroHalf/CglZeroHalf.cpp: refreshSolver, generateCuts", "src/CglZeroHalf/Cgl012cut.cpp: sep_012_cut, get_cut, best_weakening, best_cut"]}
{"id": "C52", "title": "Every CglZeroHalf cut is violated and is an integer cut", "statement": "Every cut that CglZeroHalf::generateCuts adds is a less-or-equal cut with integer coefficients on integer columns and an integer right-hand side, and is violated by the LP solution by more than 1/1000.", "quantifier": "all inputs and histories", "why_tests_cant": "Quantifies over all LP solutions.", "anchors": ["src/CglZeroHalf/CglZeroHalf.cpp: generateCuts", "src/CglZeroHalf/Cgl012cut.cpp: get_cut, cut_score, sep_012_cut"]}
{"id": "C53", "title": "Cuts that CglZeroHalf marks as globally valid are", "statement": "When CglZeroHalf::generateCuts is called with the flag for global cuts, the cuts it marks as globally valid are satisfied by every feasible point of the problem the generator was refreshed with.", "quantifier": "all problems, all histories of refreshes, flag changes and calls", "why_tests_cant": "Depends on the whole history of a generator.", "anchors": ["src/CglZeroHalf/CglZeroHalf.cpp: generateCuts", "src/CglZeroHalf/CglZeroHalf.hpp: setFlags"]}
{"id": "C54", "title": "CglZeroHalf always returns", "statement": "For data without explicit zeros whose sizes fit the int type and a solution not more than one outside the bounds, CglZeroHalf::refreshSolver and generateCuts return: no loop runs forever, no array is overrun, nothing is divided by zero, no call of exit or failed assertion is reached. The one thing that can happen is the signed overflow of the sum of two distances in the shortest path code, which does no harm where overflow wraps. (That it happens on ordinary data, and that explicit zeros fail an assertion or divide by zero, is shown.)", "quantifier": "all such problems, histories and solutions; any choice in the heap; any time limit", "why_tests_cant": "Termination and absence of undefined behaviour for all inputs.", "anchors": ["src/CglZeroHalf/Cgl012cut.cpp: all of the separation", "src/CglZeroHalf/CglZeroHalf.cpp: refreshSolver, generateCuts"]}
{"id": "C55", "title": "What copying a CglZeroHalf gives", "statement": "A copy (or clone) of a CglZeroHalf generator adds no cut until it has been refreshed, and refreshed with a problem that has rows it is in the same state as the original refreshed with it. Assigning to a generator that holds a problem aborts. (So a copy is not equivalent to its original: refuted.)", "quantifier": "all states of the generators, all problems", "why_tests_cant": "Holds for every state in which a copy is taken.", "anchors": ["src/CglZeroHalf/CglZeroHalf.cpp: copy constructor, operator=", "src/CglZeroHalf/Cgl012cut.cpp: Cgl012Cut::operator="]}
{"id": "C56", "title": "Refreshing a CglZeroHalf replaces its problem", "statement": "After refreshSolver with a problem that has rows, the state of a CglZeroHalf generator depends only on this problem and on the parameters, not on what it did before. (With a problem without rows the old rows stay, and cuts for the old problem are added: refuted.)", "quantifier": "all states, all problems", "why_tests_cant": "Relates all previous states.", "anchors": ["src/CglZeroHalf/CglZeroHalf.cpp: refreshSolver"]}
{"id": "C57", "title": "CglFlowCover never cuts off a mixed-integer solution", "statement": "Every cut that CglFlowCover::generateCuts adds is satisfied by every feasible point of the solver's problem: exactly when coefficients, bounds and the ratios of variable bound rows lie on a grid with fewer than a million points per unit (integer data, for instance), and otherwise up to 2e-6 times the number of entries of a row. Two-entry rows with one binary column must not be free, must have opposite signs if they are equations, must not have a tiny coefficient or a tiny nonzero right-hand side, and no continuous lower bound may lie just below zero. (Without the conditions on free rows and on signs a cut can remove feasible points by 2 and more, and off the grid by a little: refuted.)", "quantifier": "all problems, all LP solutions, all states of the generator", "why_tests_cant": "A cut that loses a solution shows only on particular data; lifting depends on all coefficients of a row.", "anchors": ["src/CglFlowCover/CglFlowCover.cpp: flowPreprocess, determineOneRowType, generateOneFlowCut, liftMinus, liftPlus, generateCuts"]}
{"id": "C58", "title": "CglFlowCover cuts are violated and limited in number", "statement": "Every cut that CglFlowCover::generateCuts adds is violated by the LP solution by more than 0.05. Over any sequence of calls, on any problems, a generator adds no more cuts than its limit (setMaxNumCuts) minus the number set or counted before, and once the limit is reached a call changes nothing.", "quantifier": "all problems, LP solutions, sequences of calls", "why_tests_cant": "Quantifies over all sequences of calls.", "anchors": ["src/CglFlowCover/CglFlowCover.cpp: generateCuts, generateOneFlowCut", "src/CglFlowCover/CglFlowCover.hpp: setMaxNumCuts, setNumFlowCuts"]}
{"id": "C59", "title": "CglFlowCover always returns", "statement": "CglFlowCover::generateCuts returns for every problem as in C57 and every solution of its LP relaxation: the loops that build a cover end, nothing is divided by zero, no index is out of range and, if rows have fewer than 5000 entries or data are on a grid, no assertion fails. (An explicit zero in a variable equality, or a lower bound of -5e-7, divides by zero or fails an assertion: refuted.)", "quantifier": "all such problems and LP solutions, with and without assertions", "why_tests_cant": "Termination and absence of undefined behaviour for all inputs.", "anchors": ["src/CglFlowCover/CglFlowCover.cpp: flowPreprocess, generateOneFlowCut"]}
{"id": "C60", "title": "CglCliqueStrengthening loses no solution", "statement": "Whichever rows are asked for, whenever the time limit stops the loop and however the cliques are extended along true conflicts, every point feasible for the solver's problem before CglCliqueStrengthening::strengthenCliques is feasible after it, provided the coefficients of each row are equal in size or at least 1e-6 apart. (Closer coefficients: refuted, a feasible point is lost.)", "quantifier": "all problems, conflict graphs, extension methods, requested rows", "why_tests_cant": "The rows of the problem are replaced; a lost solution shows only for particular coefficient patterns.", "anchors": ["src/CglCliqueStrengthening/CglCliqueStrengthening.cpp: detectCliqueRows, cliqueExtension, addStrongerCliques, removeDominatedRows, strengthenCliques"]}
{"id": "C61", "title": "CglCliqueStrengthening does not weaken the problem", "statement": "After strengthenCliques every point within the column bounds that satisfies the new rows, fractional or not, satisfies the old rows, provided no row is violated by one of its columns alone; with C60 the feasible set stays the same. (A row such as 3x+5y<=4 on binaries breaks it, and so does a second call on an object whose first call removed rows: refuted.)", "quantifier": "all problems, conflict graphs, extension methods, requested rows, all sequences of calls of which the earlier ones extended nothing", "why_tests_cant": "Requires comparing two polyhedra for all coefficients.", "anchors": ["src/CglCliqueStrengthening/CglCliqueStrengthening.cpp: checkDominance, removeDominatedRows, cliqueExtension"]}
{"id": "C62", "title": "CglCliqueStrengthening reports what it did", "statement": "strengthenCliques leaves the columns alone; afterwards the rows are some of the old ones in their order followed by the new ones. constraintsDominated() is the number of rows removed, there are at most constraintsExtended() new rows, nothing changes if it is zero, only inequalities over 2 to 256 binary columns are removed, and each new row is named after an old one.", "quantifier": "all problems, extension methods, requested rows", "why_tests_cant": "Relates counters, names and rows for all inputs.", "anchors": ["src/CglCliqueStrengthening/CglCliqueStrengthening.cpp: strengthenCliques, addStrongerCliques, removeDominatedRows", "src/CglCliqueStrengthening/CglCliqueStrengthening.hpp: constraintsExtended, constraintsDominated"]}
{"id": "C63", "title": "CglCliqueStrengthening is free of undefined behaviour", "statement": "The constructor succeeds for every problem, and strengthenCliques returns normally when the matrix is not empty, row names have at most 247 characters and the rows asked for by index are plain set packing rows. (Longer names overflow a buffer, an empty matrix dereferences a null pointer, other rows read out of bounds, a second call after rows were removed writes out of bounds: refuted.)", "quantifier": "all problems, extension methods, requested rows", "why_tests_cant": "Memory safety for all inputs.", "anchors": ["src/CglCliqueStrengthening/CglCliqueStrengthening.cpp: constructor, strengthenCliques, addStrongerCliques, removeDominatedRows"]}
{"id": "C64", "title": "CglLiftAndProject never cuts off a mixed 0-1 solution", "statement": "Every cut CglLiftAndProject::generateCuts adds is satisfied by every feasible point, when the matrix has no gaps, the multipliers returned for the cone program satisfy it exactly, and every column that is fractional in the LP solution is restricted to 0 and 1. (With a continuous fractional column a cut can remove a feasible point, because the type of another column is tested: refuted.)", "quantifier": "all problems, LP solutions, cone solutions, normalizations", "why_tests_cant": "A lost solution depends on the data and on the multipliers found.", "anchors": ["src/CglLiftAndProject/CglLiftAndProject.cpp: generateCuts"]}
{"id": "C65", "title": "CglLiftAndProject is free of undefined behaviour", "statement": "generateCuts returns normally for every problem with at least one row, fewer rows than columns and a matrix without gaps. (With at least as many rows as columns, which the documented canonical form implies, it always reads out of bounds; with gaps it reads uninitialised memory; without rows it reads before an array: refuted.)", "quantifier": "all problems, LP solutions, cone solvers", "why_tests_cant": "Memory safety for all inputs.", "anchors": ["src/CglLiftAndProject/CglLiftAndProject.cpp: generateCuts"]}
{"id": "C66", "title": "CglLiftAndProject adds a deepest disjunctive cut", "statement": "When the cone program is solved to optimality, each new cut has the chosen normalization as right-hand side and is violated by the LP solution at least as much as every other inequality that nonnegative multipliers of the rows derive on both sides of the same 0-1 disjunction with that right-hand side; so it is violated if any of them is. (It need not be violated: refuted.)", "quantifier": "all problems, LP solutions, all inequalities derivable from the same disjunction", "why_tests_cant": "Compares the cut with infinitely many others.", "anchors": ["src/CglLiftAndProject/CglLiftAndProject.cpp: generateCuts"]}
{"id": "C67", "title": "CglLiftAndProject keeps a legal normalization", "statement": "After any sequence of setBeta calls getBeta() is the last value accepted, initially 1; exactly 1 and -1 are accepted, any other value throws and changes nothing.", "quantifier": "all sequences of calls", "why_tests_cant": "Quantifies over all histories.", "anchors": ["src/CglLiftAndProject/CglLiftAndProject.hpp: setBeta, getBeta"]}
{"id": "C68", "title": "CglBKClique never cuts off an integer solution", "statement": "Every cut CglBKClique::generateCuts adds is satisfied by every feasible point of any problem about which the conflict graph is right; cuts already in the collection stay as they are; the new cuts are marked globally valid exactly when the caller is not in the tree and has set option 4, or option 8 in pass 0.", "quantifier": "all problems, LP solutions, cliques found and extensions chosen, parameters, node information", "why_tests_cant": "Depends on the graph, on the cliques found and on how complemented literals meet in one cut.", "anchors": ["src/CglBKClique/CglBKClique.cpp: generateCuts, separateCliques, extendCliques, insertCuts"]}
{"id": "C69", "title": "CglBKClique cuts are violated by the minimum violation", "statement": "Every cut CglBKClique::generateCuts adds is violated by the LP solution by at least getMinViol(), whatever setters, copies and earlier calls the generator has seen, also after extension.", "quantifier": "all problems, LP solutions within the bounds, histories of the generator", "why_tests_cant": "Quantifies over histories and over all cliques.", "anchors": ["src/CglBKClique/CglBKClique.cpp: setMinViol, separateCliques, extendCliques, insertCuts"]}
{"id": "C70", "title": "CglBKClique parameters", "statement": "After any sequence of setter calls each getter of CglBKClique gives the value set last, clones included; setExtendingMethod stops the program exactly above 6; generateCuts changes no parameter but the limit on the number of calls. (That limit is overwritten by the number of calls made, so a later call can miss a cut a new generator finds; getNumCallsBK() is always 0; a time limit set through CglCutGenerator is ignored: refuted.)", "quantifier": "all histories of setters, copies and calls", "why_tests_cant": "Quantifies over all histories.", "anchors": ["src/CglBKClique/CglBKClique.hpp: setters and getters", "src/CglBKClique/CglBKClique.cpp: generateCuts, separateCliques", "src/CglCommon/CglCutGenerator.hpp: setMaxSeconds"]}
{"id": "C71", "title": "CglBKClique::generateCuts returns", "statement": "generateCuts returns without failing an assertion or leaving an array, with assertions on or off, when the problem has a feasible point and the conflict graph is right about it and has two vertices per column; a graph of another size stops the program. (Without a feasible point an assertion can fail: refuted.)", "quantifier": "all problems, LP solutions, cliques, parameters", "why_tests_cant": "An assertion depends on the cliques found.", "anchors": ["src/CglBKClique/CglBKClique.cpp: generateCuts, insertCuts"]}
{"id": "C72", "title": "CglOddWheel never cuts off an integer solution", "statement": "Every cut CglOddWheel::generateCuts adds is satisfied by every feasible point of any problem about which the conflict graph is right, whichever rim and centre literals are complemented; the collection only grows; marks as in C68.", "quantifier": "all problems, LP solutions, odd wheels found", "why_tests_cant": "Depends on the structures found and on the complemented literals.", "anchors": ["src/CglOddWheel/CglOddWheel.cpp: generateCuts"]}
{"id": "C73", "title": "Lifting an odd hole to an odd wheel never weakens the cut", "statement": "Every cut CglOddWheel::generateCuts adds is violated by the LP solution at least as much as the odd-hole inequality it was built from. (Fails when more than half of the rim is complemented, because the centre then gets a negative coefficient: refuted.)", "quantifier": "all problems, LP solutions within the bounds, odd wheels found", "why_tests_cant": "Depends on the number of complemented literals.", "anchors": ["src/CglOddWheel/CglOddWheel.cpp: generateCuts"]}
{"id": "C74", "title": "CglOddWheel returns and keeps its extension method", "statement": "generateCuts returns whenever the conflict graph is right about the problem and has two vertices per column; another size stops the program. getExtendingMethod() is what was set last, clones included; setExtendingMethod stops the program above 2. (A clone loses the time limit, the aggressiveness and the global-cuts flag: refuted.)", "quantifier": "all problems, LP solutions, histories of setters and copies", "why_tests_cant": "Quantifies over all histories and structures found.", "anchors": ["src/CglOddWheel/CglOddWheel.cpp: generateCuts, setExtendingMethod, copy constructor"]}
{"id": "C75", "title": "Scratch memory of CglBKClique and CglOddWheel", "statement": "Any program that builds, clones, uses on problems of any sizes and destroys generators of these classes releases no array twice, uses none after its release, and leaks none once all generators are destroyed, as long as it does not assign one generator to another. (The classes have no assignment operator of their own: assigning leads to a double release, a use after release or a leak: refuted.)", "quantifier": "all programs over these operations", "why_tests_cant": "Quantifies over all interleavings of operations.", "anchors": ["src/CglBKClique/CglBKClique.cpp: constructors, destructor, checkMemory", "src/CglOddWheel/CglOddWheel.cpp: constructors, destructor, checkMemory"]}
{"id": "C76", "title": "CglTwomir never cuts off an integer solution by more than a stated tolerance", "statement": "Let every column have a nonnegative lower bound, every coefficient and bound of a row that is within 1e-10 above an integer be that integer, and no row have a positive range of at most 1e-6. Then each row cut with two or more columns that CglTwomir::generateCuts adds is satisfied by every feasible point z up to (T*(1.1 n + 0.1 m) + n)*M*1e-12, where n and m are the numbers of columns and rows, T bounds the scale factors set, and M bounds the coordinates of z and its distances to the bounds. When that number is at most 1e-9, column cuts hold exactly at z, and no cut without columns is added. (Each of the three conditions is needed: with a negative lower bound, a coefficient just above an integer or a tiny row range a feasible integer point is cut off: refuted.)", "quantifier": "all problems, LP solutions and bases, random numbers, settings, feasible points", "why_tests_cant": "Quantifies over all feasible points and over all bases; the tolerances interact.", "anchors": ["src/CglTwomir/CglTwomir.cpp: generateCuts, DGG_generateCutsFromBase, DGG_getTableauConstraint, DGG_getFormulaConstraint, DGG_transformConstraint, DGG_nicefyConstraint, DGG_buildMir, DGG_build2step, DGG_substituteSlacks"]}
{"id": "C77", "title": "Form and violation of the cuts of CglTwomir", "statement": "Every row cut CglTwomir::generateCuts adds either has no column and bounds 1 and 0, or has two to 500 distinct columns, none fixed, coefficients above 1e-5 in absolute value whose ratios are below 1e8, fewer columns than the limit that applies to the node, and is violated by the LP solution by at least 1e-5. Every column cut gives one integer column a strictly tighter integer bound.", "quantifier": "all problems, LP solutions that have fixed columns at their value, bases, settings, node information", "why_tests_cant": "Quantifies over all problems and bases.", "anchors": ["src/CglTwomir/CglTwomir.cpp: generateCuts, DGG_isCutDesirable, DGG_generateCutsFromBase"]}
{"id": "C78", "title": "CglTwomir::generateCuts returns", "statement": "Under the conditions of C76 with tolerance at most 1e-9, on a feasible problem with coefficients of absolute value at most 2e7, generateCuts returns: no conversion to int is undefined and no null pointer is read. (With a coefficient above 21474836.47 in a formulation row the conversion is undefined; with a coefficient just above an integer a cut without any column leads to a read through a null pointer: refuted.)", "quantifier": "all feasible problems, LP solutions, bases, settings, node information", "why_tests_cant": "Depends on the size of coefficients met in derived constraints.", "anchors": ["src/CglTwomir/CglTwomir.cpp: generateCuts, DGG_generateFormulationCutsFromBase"]}
{"id": "C79", "title": "Settings of CglTwomir", "statement": "generateCuts adds nothing when some column is free, when both kinds of inequalities are switched off, or when tableau rows are off (or the node is below the root, or the pass is six or later) and formulation rows are off or the node information gives no formulation rows, which is its default; setFormulationRows has no effect; setAway and setAwayAtRoot keep their values in (0, 0.5] and ignore others; cuts are marked globally valid exactly outside the tree, in a build without Clp only with option 4, or option 8 in pass 0, and up to the length limit of the tree.", "quantifier": "all problems, sequences of setters, node information", "why_tests_cant": "Quantifies over all problems and settings.", "anchors": ["src/CglTwomir/CglTwomir.cpp: generateCuts, setAway, setAwayAtRoot", "src/CglTwomir/CglTwomir.hpp: setCutTypes, setFormulationRows"]}
{"id": "C80", "title": "CglRedSplit never cuts off an integer solution by more than a stated tolerance", "statement": "Let the LP solution be basic, the simplex tableau exact, the bounds of integer columns integers, and rows and columns whose two bounds differ by less than EPS be fixed (at an integer for columns within EPS of one). Then each row cut CglRedSplit::generateCuts adds is an upper bound that every feasible point y satisfies up to 50*((2 EPS/away) * sum over nonbasic integer columns j of (|a_j|+2)|y_j - x_j| + EPS_ELIM * sum of |slacks of y|) + min(EPS_COEFF, EPS_COEFF_LUB) * sum of |y_j| - EPS_RELAX_ABS, where a is the integer combination of tableau rows the cut comes from. With EPS, EPS_ELIM and EPS_COEFF set to zero every cut keeps every feasible point exactly. (With default parameters an integer column with a coefficient near an integer makes a cut that removes a feasible point by 0.45; a row whose sides differ by less than EPS makes an invalid cut: refuted.)", "quantifier": "all problems, basic LP solutions, parameters, feasible points, numbers of rows and columns", "why_tests_cant": "Quantifies over all feasible points and all bases; tolerances interact with the size of bounds.", "anchors": ["src/CglRedSplit/CglRedSplit.cpp: generateCuts, generate_row, flip, generate_cgcut, generate_cgcut_2, unflip, eliminate_slacks, row_scale_factor, generate_packed_row"]}
{"id": "C81", "title": "Form and violation of the cuts of CglRedSplit", "statement": "Each new cut is an upper bound on distinct columns, fewer than 300 and at most MAX_SUPPORT, each coefficient above EPS_COEFF or, for a column with a bound beyond LUB, above EPS_COEFF_LUB. If the LP solution violates the cut before its relaxation, then by at least MINVIOL per element. If no column has a bound beyond LUB, coefficients above 50 EPS_COEFF differ from all others by less than a factor MAXDYN. (A new cut need not be violated at all, and a coefficient between EPS_COEFF and 50 EPS_COEFF can break MAXDYN: refuted.)", "quantifier": "all problems, LP data, parameters", "why_tests_cant": "Quantifies over all problems and scale factors.", "anchors": ["src/CglRedSplit/CglRedSplit.cpp: row_scale_factor, generate_packed_row, generateCuts"]}
{"id": "C82", "title": "The reduction of the tableau terminates with short rows", "statement": "The reduction of the continuous part of the tableau ends after at most sum |row|^2 / (minReduc * normIsZero) iterations. The rows it leaves are the integer combinations of the given rows whose multipliers it records, have the same set of integer combinations, and no integer multiple of a row can shorten another by the fraction minReduc unless one of the two is shorter than normIsZero. (When the quotient of two rows does not fit in an int the conversion is undefined: refuted.)", "quantifier": "all tableaux, any number of rows and columns", "why_tests_cant": "A loop until nothing changes, over all tableaux.", "anchors": ["src/CglRedSplit/CglRedSplit.cpp: reduce_contNonBasicTab, find_step, test_pair, update_pi_mat, update_redTab"]}
{"id": "C83", "title": "CglRedSplit reads no row beyond the last", "statement": "If maxTab admits all rows with a fractional basic integer column, generateCuts neither reads outside the arrays of the basis nor uses rows it has not filled, and throws nothing. (If it does not admit all of them, the visit of the rows starts at a random one and reads one entry past the end of the basis: refuted with 506 rows.)", "quantifier": "all problems, bases, parameters", "why_tests_cant": "Depends on the number of rows and the random start.", "anchors": ["src/CglRedSplit/CglRedSplit.cpp: generateCuts"]}
{"id": "C84", "title": "When CglRedSplit adds nothing", "statement": "generateCuts leaves the cuts unchanged when no optimal basis is available, when no basic integer column is fractional by more than away, and when some column or row is nonbasic and free. It never removes a cut, and adds at most one for each fractional basic integer column.", "quantifier": "all problems, LP data, parameters, cut collections", "why_tests_cant": "Quantifies over all problems.", "anchors": ["src/CglRedSplit/CglRedSplit.cpp: generateCuts"]}
{"id": "C85", "title": "CglDuplicateRow does nothing in its default mode and in the tree", "statement": "With bit 1 or bit 2 of the mode set (the default is 3) generateCuts leaves object and cuts unchanged, and outDuplicates on an object made from the solver leaves the problem as it is. In the tree an object made from a solver adds nothing in any mode.", "quantifier": "all problems, cut collections, modes with bit 1 or 2", "why_tests_cant": "Quantifies over all problems; the documentation promises that duplicate rows are found.", "anchors": ["src/CglDuplicateRow/CglDuplicateRow.cpp: generateCuts, outDuplicates, constructors, refreshSolver"]}
{"id": "C86", "title": "CglDuplicateRow in clique mode keeps the set of feasible points", "statement": "In mode 8 on a problem with integer data, outDuplicates leaves a problem with exactly the same feasible points, and every cut of generateCuts is satisfied by every feasible point, provided that the last open column of a set packing row is not an inner column of another, and that among rows with the same open columns equations come first (the latter only for outDuplicates). (Without these: an equation after an inequality on the same columns is deleted; a row that does not follow from the others is deleted, or columns of a feasible point are fixed, since the comparison of two rows runs past the end of one; and a row 1/2 <= x + y <= 1 on continuous columns counts as an equation: refuted.)", "quantifier": "all problems, any numbers of rows and columns, all points", "why_tests_cant": "Equality of feasible sets over all problems and points.", "anchors": ["src/CglDuplicateRow/CglDuplicateRow.cpp: outDupsEtc, generateCuts8, outDuplicates"]}
{"id": "C87", "title": "Of equal set packing rows at most one is left", "statement": "In mode 8 on a feasible problem with integer data, of any two set packing rows on the same open columns at least one is marked for deletion (-2 in duplicate()), provided that the last column of a set packing row is not an inner column of another.", "quantifier": "all problems, all pairs of rows", "why_tests_cant": "Quantifies over all problems and pairs of rows; rests on an incremental lexicographic sort.", "anchors": ["src/CglDuplicateRow/CglDuplicateRow.cpp: outDupsEtc, generateCuts8"]}
{"id": "C88", "title": "CglDuplicateRow in clique mode returns", "statement": "On an object made from a solver with at least as many rows, in mode 8, generateCuts and outDuplicates terminate, read and write inside their arrays and convert no number out of the range of int, if the data are integers, bounds of rows less the part of fixed columns fit in an int, and the last column of a set packing row is not an inner column of another. (An object made by the default constructor writes through a null pointer; without the condition on last columns it reads out of bounds; a lower bound of 3e9 is converted to int: refuted.)", "quantifier": "all problems, any size", "why_tests_cant": "Termination and memory safety over all problems.", "anchors": ["src/CglDuplicateRow/CglDuplicateRow.cpp: outDupsEtc, generateCuts8, outDuplicates, constructors"]}
{"id": "C89", "title": "Copies of CglDuplicateRow", "statement": "A copy of an object made from a solver equals it; a copy taken after one call on the same problem succeeds and holds the mark of each row. (After outDuplicates has been called twice on a problem that shrinks, a copy reads past the end of the marks: refuted.)", "quantifier": "all problems, modes", "why_tests_cant": "Depends on the sizes of two arrays kept by different functions.", "anchors": ["src/CglDuplicateRow/CglDuplicateRow.cpp: copy constructor, clone, operator=, refreshSolver, generateCuts8"]}
{"id": "C90", "title": "CglLandP cuts are valid", "statement": "Every cut that generateCuts of CglLandP adds is satisfied by every feasible point of the problem (with row and column sizes for which the tolerances of the code do not matter), if the simplex interface is exact in the bases it reaches, whatever pivots are chosen; range rows are covered on the first call. If no range row is turned into an equation or no extra cuts are asked for, the cuts mention only columns of the problem. (Extra cuts when entering the basis, range rows on later calls and integer columns with fractional bounds give invalid cuts; extra cuts with range rows mention columns that do not exist: refuted.)", "quantifier": "all problems, bases, pivot choices, parameters except two modes", "why_tests_cant": "The pivots depend on numerical choices; validity must hold for all of them.", "anchors": ["src/CglLandP/CglLandP.cpp: generateCuts", "src/CglLandP/CglLandPSimplex.cpp: optimize, changeBasis, createMIG, createIntersectionCut, generateExtraCuts, pullTableauRow"]}
{"id": "C91", "title": "Form of CglLandP cuts", "statement": "A cut added by generateCuts is a lower bound on a non-empty form without repeated columns, with coefficients above EPS, ratio at most maxRatio, length within maxFillIn, violated by minViolation if that is positive; or it has no columns. The latter happens only if a tableau row is longer than maximumCutLength or a range row was turned into an equation. (It does happen; and with the default minViolation the solution may satisfy the cut: refuted.)", "quantifier": "all inputs", "why_tests_cant": "Requires reasoning about every path to the insertion.", "anchors": ["src/CglLandP/CglLandP.cpp: generateCuts", "src/CglLandP/CglLandPValidator.cpp: operator(), cleanCut"]}
{"id": "C92", "title": "CglLandP terminates and keeps its limits", "statement": "generateCuts ends for all inputs; it adds at most maxCutPerRound cuts and one per row, at most maximumCandidates, plus at most extraCutsLimit extra cuts.", "quantifier": "all inputs, all pivot choices", "why_tests_cant": "Termination over all choices of pivots.", "anchors": ["src/CglLandP/CglLandP.cpp: generateCuts", "src/CglLandP/CglLandPSimplex.cpp: optimize, rescanReducedCosts, generateExtraCuts"]}
{"id": "C93", "title": "CglLandP memory safety", "statement": "Without range rows, with a full basis, a rule other than initialReducedCosts and without allViolatedMigs, generateCuts has no undefined behaviour. (The rule writes rowFlags_[-1]; allViolatedMigs reads members before they are set; with range rows the validator reads past the bounds; an extra cut for a general integer fails an assertion: refuted.)", "quantifier": "all problems, all pivot choices", "why_tests_cant": "Array accesses over all sizes and choices.", "anchors": ["src/CglLandP/CglLandPSimplex.cpp: optimize, genThisBasisMigs, generateExtraCut", "src/CglLandP/CglLandPValidator.cpp: cleanCut", "src/CglLandP/CglLandP.cpp: CachedData"]}
{"id": "C94", "title": "What a call of CglLandP changes", "statement": "generateCuts keeps the cuts it is given; it changes no parameter but the time limit and, on a first call with range rows, the sign of maximumCutLength, after which no call adds a cut or changes anything.", "quantifier": "all inputs, all sequences of two calls", "why_tests_cant": "A property of every later call.", "anchors": ["src/CglLandP/CglLandP.cpp: generateCuts"]}
{"id": "C95", "title": "Copies of CglLandP", "statement": "A copy equals the object; an assigned object has the same validator, and the same parameters if degeneratePivotLimit equals failedPivotLimit. (operator= copies the wrong field and not the row count; the assigned object then inserts cuts without columns: refuted.)", "quantifier": "all objects", "why_tests_cant": "Two classes with many fields.", "anchors": ["src/CglLandP/CglLandP.cpp: Parameters::operator=, CglLandP::operator=, copy constructors"]}
{"id": "C96", "title": "The validator of CglLandP weakens cuts", "statement": "A cut accepted by cleanCut or cleanCut2 is weaker than the one given within the bounds of the columns, up to coefficients below 1e-20; its form is part of the form given, non-empty, and keeps the limits on size, ratio and length.", "quantifier": "all cuts, bounds, points within the bounds", "why_tests_cant": "Validity at all points.", "anchors": ["src/CglLandP/CglLandPValidator.cpp: cleanCut, cleanCut2"]}
{"id": "C97", "title": "Rows that CglLandP tries", "statement": "The rows tried are exactly those whose basic variable is an integer column with a value further than `away` from the integers, without repetition, by decreasing distance and then by column, cut off at maximumCandidates.", "quantifier": "all problems and bases", "why_tests_cant": "Completeness and order for all sizes.", "anchors": ["src/CglLandP/CglLandP.cpp: getSortedFractionalIndices"]}
{"id": "C98", "title": "Cuts of CglMixedIntegerRounding2 are valid", "statement": "After any history of setter calls, refreshSolver, copies and generateCuts on models that the current one extends, every new cut is satisfied by every feasible point of the current model, provided no negated copy of a Clp solver is used or preprocessing is done in every call (mode 1), row data are clear of the tolerance and integer columns have integral upper bounds; for one row at a time and for flow conservation rows no further condition on the run is needed. With Clp and default settings the cuts may be invalid.", "quantifier": "all models, histories, LP solutions, settings, library functions", "why_tests_cant": "Validity quantifies over all feasible points, all aggregations and all histories of the cached rows.", "anchors": ["src/CglMixedIntegerRounding2/CglMixedIntegerRounding2.cpp: generateCuts, mixIntRoundPreprocess, generateMirCuts, boundSubstitution, cMirSeparation"]}
{"id": "C99", "title": "Outcomes of CglMixedIntegerRounding2::generateCuts", "statement": "A call on a model that extends those seen before never throws or aborts; it either gives a result, or reads outside the bounds of the columns because the slack of an aggregated row has a coefficient below the tolerance, or reads row types that a copy did not initialise. One row at a time it always gives a result; so it does for flow conservation rows when the object is not a copy.", "quantifier": "all well-formed models, histories, settings, LP solutions", "why_tests_cant": "Memory errors depend on rare aggregation multipliers and on the history.", "anchors": ["src/CglMixedIntegerRounding2/CglMixedIntegerRounding2.cpp: generateMirCuts, boundSubstitution, gutsOfCopy"]}
{"id": "C100", "title": "Form of the cuts of CglMixedIntegerRounding2", "statement": "Every new cut has only an upper side, strictly increasing existing columns, coefficients between 1e-5 and 1e7 in absolute value with ratio at most 1e8, is violated by the LP solution by at least 1e-6, and in the tree or after pass 0 has at most 0.8 times the number of columns.", "quantifier": "all models, objects, LP solutions; no condition on the data", "why_tests_cant": "All inputs.", "anchors": ["src/CglMixedIntegerRounding2/CglMixedIntegerRounding2.cpp: generateMirCuts, cMirSeparation"]}
{"id": "C101", "title": "Settings of CglMixedIntegerRounding2", "statement": "Constructor and setters accept exactly the documented values, and after any history the settings are the last accepted ones; generateCuts does not change them unless a negated copy of a Clp solver is used with a negative MAXAGGR; with MAXAGGR -2 nothing happens in the tree; new cuts are marked global only outside the tree and when the options ask for it.", "quantifier": "all histories of calls", "why_tests_cant": "Histories of any length.", "anchors": ["src/CglMixedIntegerRounding2/CglMixedIntegerRounding2.cpp: gutsOfConstruct, generateCuts, setDoPreproc", "src/CglMixedIntegerRounding2/CglMixedIntegerRounding2.hpp: setters"]}
{"id": "C102", "title": "Copies of CglMixedIntegerRounding2", "statement": "A copy has the settings and preprocessed data of the original; if a call on the copy gives a result, the original gives the same; both always agree when one row is used at a time, when the original has not been preprocessed, or in mode 1. A copy of a used object may read uninitialised memory when rows are aggregated.", "quantifier": "all histories, models, calls", "why_tests_cant": "Reads of uninitialised memory may go unnoticed in a run.", "anchors": ["src/CglMixedIntegerRounding2/CglMixedIntegerRounding2.cpp: gutsOfCopy, generateMirCuts"]}
{"id": "C103", "title": "Insertion into the hashed containers of row cuts", "statement": "For row_cut of CglProbing and CglUniqueRowCuts with a positive hash multiplier, any sequence of insertions into a new object succeeds without failing assertion or memory error. Each returns 0 or 1, never -1. The cuts for which 0 was returned are exactly those held, in order, with sorted entries and the same solutions. 1 is returned only for a cut out of range or one that is the same as a held cut.", "quantifier": "all sequences of cuts, initial sizes, hash functions, equality tests", "why_tests_cant": "Sequences of any length over all hash collisions and growth steps.", "anchors": ["src/CglProbing/CglProbing.cpp: row_cut::addCutIfNotDuplicate", "src/CglPreProcess/CglPreProcess.cpp: CglUniqueRowCuts::insertIfNotDuplicate"]}
{"id": "C104", "title": "Which duplicates the containers of row cuts recognise", "statement": "An insertion is refused exactly when the cut is out of range or is the same as the last held cut of its hash slot; a cut given twice in a row is refused the second time; without collisions no two held cuts are the same. With collisions duplicates are stored, as a slot in use is overwritten instead of chained.", "quantifier": "all sequences of cuts, equivalences, hash functions", "why_tests_cant": "Needs all hash functions and sequences.", "anchors": ["src/CglProbing/CglProbing.cpp: row_cut::addCutIfNotDuplicate", "src/CglPreProcess/CglPreProcess.cpp: CglUniqueRowCuts::insertIfNotDuplicate"]}
{"id": "C105", "title": "CglUniqueRowCuts::eraseRowCut", "statement": "After any insertions, erasing a cut that is not the last one moves the last one to its place, if the slots of the cuts are distinct; in general it does so, or fails an assertion, or reads outside the table. Erasing the only cut always fails an assertion, erasing the last of several never succeeds (use after free or failing assertion). Insertions after erasures can read a null pointer.", "quantifier": "all sequences of insertions, hash functions, positions", "why_tests_cant": "All states and collisions.", "anchors": ["src/CglPreProcess/CglPreProcess.cpp: CglUniqueRowCuts::eraseRowCut"]}
{"id": "C106", "title": "Copies and emptying of CglUniqueRowCuts", "statement": "After any insertions addCuts gives every held cut to the collection unless an equal one is there, adds nothing else and leaves the object empty. A copy reads an unset pointer unless the array is full, in which case it has the same contents. After addCuts an insertion that meets a used slot reads a null pointer.", "quantifier": "all sequences of insertions, collections", "why_tests_cant": "Reads of unset memory may go unnoticed.", "anchors": ["src/CglPreProcess/CglPreProcess.cpp: CglUniqueRowCuts copy constructor, operator=, addCuts"]}
{"id": "C107", "title": "Cuts handed over by row_cut of CglProbing", "statement": "addCuts hands over only held cuts. With at most nRows of them it hands over all, in order or reversed on even passes. With more it hands over all or none, never the best ones; without an array of strengthened rows it always hands over none.", "quantifier": "all sequences of insertions, limits, passes, arrays of rows", "why_tests_cant": "All sequences and limits.", "anchors": ["src/CglProbing/CglProbing.cpp: row_cut::addCuts"]}
{"id": "C108", "title": "cliqueIt loses no feasible point", "statement": "When CglPreProcess::cliqueIt returns a new problem, it has the same columns, bounds and integer markers and strictly fewer rows, is well formed, and every feasible point of the old problem is feasible in the new one.", "quantifier": "all problems, random numbers, sorting permutations, thresholds", "why_tests_cant": "All conflict graphs and all points.", "anchors": ["src/CglPreProcess/CglPreProcess.cpp: CglPreProcess::cliqueIt, CglBK"]}
{"id": "C109", "title": "cliqueIt keeps the feasible set", "statement": "If no two set packing rows have two columns in common, the problem returned by cliqueIt has exactly the feasible points of the old one. Without that condition points can be gained, since neighbours are counted with repetitions and branches of the search are then left out.", "quantifier": "all problems, random numbers, sorting permutations, points", "why_tests_cant": "A lost constraint shows only at particular points of particular graphs.", "anchors": ["src/CglPreProcess/CglPreProcess.cpp: CglPreProcess::cliqueIt, CglBK::bronKerbosch, CglBK::newSolver"]}
{"id": "C110", "title": "Rows added by cliqueIt", "statement": "The new problem consists of some of the old rows in their order followed by rows sum <= 1 over maximal cliques with more than two members of the conflict graph of the set packing rows in use, no two over the same set. If no two set packing rows have two columns in common all such maximal cliques are there.", "quantifier": "all problems, random numbers, sorting permutations", "why_tests_cant": "All graphs.", "anchors": ["src/CglPreProcess/CglPreProcess.cpp: CglBK::bronKerbosch, CglBK::newSolver"]}
{"id": "C111", "title": "cliqueIt always comes to an end", "statement": "On every well formed problem cliqueIt returns a problem or nothing: no assertion fails, no array is left, and the search ends.", "quantifier": "all problems, random numbers, sorting permutations", "why_tests_cant": "All sizes and graphs.", "anchors": ["src/CglPreProcess/CglPreProcess.cpp: CglPreProcess::cliqueIt, CglBK"]}
{"id": "C112", "title": "Rows removed by cliqueIt", "statement": "A row that is not in the new problem is a copy of another row with two entries, or a set packing row in use, with lower side at most 0, that has two columns in a clique that was added. Rows that are not set packing rows in use hold at every feasible point of the new problem.", "quantifier": "all problems, random numbers, sorting permutations, rows", "why_tests_cant": "All graphs and rows.", "anchors": ["src/CglPreProcess/CglPreProcess.cpp: CglBK constructor, CglBK::bronKerbosch, CglBK::newSolver"]}
{"id": "C113", "title": "Copies of CglBK", "statement": "The copy constructor of CglBK gives an object with the same graph and the same three sets. A default constructed object assigned from one with candidates gets an array of length 0, and the search on it leaves the array.", "quantifier": "all objects", "why_tests_cant": "Writes outside an array may go unnoticed.", "anchors": ["src/CglPreProcess/CglPreProcess.cpp: CglBK copy constructor and operator="]}
{"id": "C114", "title": "makeInteger keeps an optimum", "statement": "CglPreProcess::makeInteger changes nothing but integer markers, and only from continuous to integer. If all data are multiples of 1/D for some D below a million with coefficients of at most a million, and no equality row has two continuous columns of lower bound 0 with coefficients 1 and -1, then for every feasible point there is one that is feasible with the new markers and costs no more. With such a pair a feasible problem can become infeasible.", "quantifier": "all problems, costs, directions, feasible points", "why_tests_cant": "All points of all problems.", "anchors": ["src/CglPreProcess/CglPreProcess.cpp: CglPreProcess::makeInteger"]}
{"id": "C115", "title": "makeInteger ends within its arrays", "statement": "On every well formed problem without stored zeros makeInteger returns, and marks only columns that are not fixed. With stored zeros it can write outside an array.", "quantifier": "all problems, costs, directions", "why_tests_cant": "Writes outside an array may go unnoticed.", "anchors": ["src/CglPreProcess/CglPreProcess.cpp: CglPreProcess::makeInteger"]}
{"id": "C116", "title": "Columns found by makeInteger", "statement": "A continuous column with a cost becomes integer if some equality row of unfixed columns has it with coefficient +-1/k and otherwise integer columns, coefficients and sides, and also if its bounds are integers and every row that has it is of that form (equality or not).", "quantifier": "all problems without stored zeros, columns", "why_tests_cant": "All orders of rows and passes.", "anchors": ["src/CglPreProcess/CglPreProcess.cpp: CglPreProcess::makeInteger"]}
{"id": "C117", "title": "reducedCostFix keeps all points within the cutoff", "statement": "If solution, reduced costs and value given by the solver satisfy the optimality conditions of the relaxation and bounds of integer columns are integers, every feasible point that costs no more than the cutoff is feasible after CglPreProcess::reducedCostFix. Only open integer columns get their bounds changed, both to one of the old bounds, their number is returned, and every integer column at a bound with a reduced cost beyond the gap is fixed. With fractional bounds all points can be lost.", "quantifier": "all problems, costs, directions, optimal solutions, cutoffs, tolerances, points", "why_tests_cant": "All points of all problems.", "anchors": ["src/CglPreProcess/CglPreProcess.cpp: CglPreProcess::reducedCostFix"]}
{"id": "C118", "title": "Columns fixed by someFixed", "statement": "The problem returned by CglPreProcess::someFixed differs in upper bounds only; those that differ belong to columns that may be fixed and are not marked as kept, equal the lower bound, and their number is limited by the fraction and the marks. It returns if some column is not looked at. With fraction 0 every such column at its lower bound is fixed. Columns at their upper bounds or marked as discarded may stay as they are, and an array is left when every column is picked.", "quantifier": "all problems, solutions, fractions, marks, sorting permutations", "why_tests_cant": "All solutions and orders.", "anchors": ["src/CglPreProcess/CglPreProcess.cpp: CglPreProcess::someFixed"]}
{"id": "C119", "title": "passInProhibited collects marks", "statement": "After any number of calls of passInProhibited with arrays of one length a bit of an entry is set exactly if it was in one of the arrays; an array of another length replaces what was there. Passing no array of the same length reads through a null pointer.", "quantifier": "all sequences of arrays", "why_tests_cant": "All sequences.", "anchors": ["src/CglPreProcess/CglPreProcess.cpp: CglPreProcess::passInProhibited"]}
{"id": "C120", "title": "tightenPrimalBounds keeps feasible points", "statement": "For a problem without stored zeros and a nonnegative tolerance, a feasible point stays feasible after CglPreProcess::tightenPrimalBounds (bounds, freed rows and changed coefficients) as long as it lies inside the new bounds of the continuous columns; so no point is lost if all columns are integer. A negative return value is given only for problems without feasible points. With continuous columns points can be lost (tiny bounds are set to zero) and gained (a row is freed using a bound that is relaxed afterwards).", "quantifier": "all problems without stored zeros, all nonnegative tolerances, all orders in which a row may be sorted", "why_tests_cant": "The set of problems and of feasible points is unbounded.", "anchors": ["src/CglPreProcess/CglPreProcess.cpp:4640-5371", "src/CglPreProcess/CglPreProcess.cpp:5375-5601"]}
{"id": "C121", "title": "Bounds found by tightenPrimalBounds", "statement": "After tightenPrimalBounds every feasible point of the given problem is inside the new bounds of the integer columns, and misses those of continuous columns by at most 1e-8. The number of rows and columns and the integer marks stay the same.", "quantifier": "all problems without stored zeros, all nonnegative tolerances, all feasible points", "why_tests_cant": "The set of problems and of feasible points is unbounded.", "anchors": ["src/CglPreProcess/CglPreProcess.cpp:4640-5371", "src/CglPreProcess/CglPreProcess.cpp:5375-5601"]}
{"id": "C122", "title": "Rows changed by tightenPrimalBounds imply the given ones", "statement": "If the given problem has a feasible point, every row of the result of tightenPrimalBounds that still has a side implies the row it came from, for all points inside the new bounds that are integer where required. So when no row has been made free, a feasible point of the result that meets the given bounds is feasible for the given problem.", "quantifier": "all feasible problems without stored zeros, all nonnegative tolerances, all rows, all points", "why_tests_cant": "The set of problems and of points is unbounded.", "anchors": ["src/CglPreProcess/CglPreProcess.cpp:5185-5345", "src/CglPreProcess/CglPreProcess.cpp:4640-5371"]}
{"id": "C123", "title": "Row scaling of preProcessNonDefault keeps the problem", "statement": "The scaling of rows at the start of CglPreProcess::preProcessNonDefault (when there are no row types) gives a problem with the same feasible points if all coefficients are multiples of one fraction with at most nine digits, whatever rationals are found for them. In any case the sides of a row are multiplied by a number other than zero, its coefficients by the same number up to 1e-9, and a row is kept, has all its signs changed or gets integer coefficients. Assertions are active.", "quantifier": "all problems, all results of the search for rationals", "why_tests_cant": "The set of problems is unbounded.", "anchors": ["src/CglPreProcess/CglPreProcess.cpp:1187-1253", "src/CglPreProcess/CglPreProcess.cpp:1722-1850"]}
{"id": "C124", "title": "Row scaling of preProcessNonDefault comes to an end", "statement": "If coefficients and sides are multiples of one fraction with at most nine digits, no zeros are stored, and the rationals found for them are exact, the row scaling ends without failing an assertion or overflow. It fails an assertion with a stored zero or when large coefficients give a multiplier below 1e-12 (without assertions the row becomes empty), it overflows with many different denominators, and the row copy may differ from the problem.", "quantifier": "all problems of this kind", "why_tests_cant": "The set of problems is unbounded.", "anchors": ["src/CglPreProcess/CglPreProcess.cpp:1187-1253", "src/CglPreProcess/CglPreProcess.cpp:1722-1850"]}
{"id": "C125", "title": "analyze keeps an optimum", "statement": "The function analyze of CglPreProcess.cpp changes nothing but integer markers and only adds them. If coefficients, sides and bounds are multiples of one fraction with at most six digits and coefficients are at most a million, every feasible point can be replaced by one that respects the new markers and costs no more, pairs of continuous columns included.", "quantifier": "all problems, all objectives and directions", "why_tests_cant": "The set of problems is unbounded.", "anchors": ["src/CglPreProcess/CglPreProcess.cpp:1256-1514"]}
{"id": "C126", "title": "Values returned by analyze", "statement": "analyze always ends. It returns -1 or at least the number of columns that are newly marked, and 0 only if nothing was marked; columns fixed up to 1e-8 are not marked. For problems on a grid as in C125, -1 is returned only if there is no feasible point. The count may include columns that are not marked, and without the grid -1 may be returned for a problem with a feasible point.", "quantifier": "all problems", "why_tests_cant": "The set of problems is unbounded.", "anchors": ["src/CglPreProcess/CglPreProcess.cpp:1256-1514"]}
{"id": "C127", "title": "Columns found by analyze", "statement": "A continuous column of an equality row whose other columns are integer with integer coefficients and which has a coefficient +-1/k is marked by analyze, unless its rounded bounds are equal. A column with integer bounds whose rows all have this form, as equalities or not, is marked. Two continuous columns of lower bound 0 with coefficients 1 and -1 in an equality row with integer data otherwise, which are in no other row and whose costs do not sum up to a gain, are both marked, unless their rounded bounds are equal.", "quantifier": "all problems, all such columns", "why_tests_cant": "The set of problems is unbounded.", "anchors": ["src/CglPreProcess/CglPreProcess.cpp:1256-1514"]}
{"id": "C128", "title": "originalColumns and originalRows follow back through the passes", "statement": "CglPreProcess::originalColumns gives for each column of the last presolved model the column of the original model found by following the arrays of all presolves back, if these are strictly increasing; the answer is then strictly increasing. originalRows gives the row found in the same way, or -1 once a row is not in the model of a pass. Without a presolve both are the identity. If the arrays refer to the model before, nothing outside them is read. In any case the columns are a sorted rearrangement of those found; with presolves that change the order of columns they no longer belong to their places, and a pass without presolve below one with a presolve is a null pointer.", "quantifier": "all numbers of passes, all arrays of presolves", "why_tests_cant": "The number of passes and their arrays are unbounded.", "anchors": ["src/CglPreProcess/CglPreProcess.cpp:8937-9028"]}
{"id": "C129", "title": "update moves marks with their columns and rows", "statement": "If the arrays of the presolve are strictly increasing, CglPreProcess::update moves each entry of prohibited_, rowType_ and scBound to the new place of its column or row, although it works in place, and keeps as many marks as there are columns and rows. With assertions it stops if and only if a prohibited column is gone. Without prohibited columns scBound is not moved; rows in another order are moved wrongly.", "quantifier": "all arrays", "why_tests_cant": "The set of arrays is unbounded.", "anchors": ["src/CglPreProcess/CglPreProcess.cpp:9029-9092"]}
