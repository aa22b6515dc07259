{
 "C01": "Full except for one reading of the documentation of Lit::new, which is refuted: Lit::new panics for Var::MAX_IDX although only larger indices are documented to panic.",
 "C02": "Round trips hold for all literals but those over variable MAX_IDX and all integers but i32::MIN; for those to_ipasir panics (refuted).",
 "C03": "All statements hold; only Assignment::iter (borrowing) panics when variable MAX_IDX is assigned (refuted), into_iter does not.",
 "C08": "Soundness of all predicates is full. Exactness holds over distinct variables and at least one literal, for clauses over bounds; the empty equality and the unit equality are the counterexamples.",
 "C09": "Inversion is proved for bounds up to the number of literals; above, the code underflows (refuted). Splitting, adding, normalization are full.",
 "C10": "Total assignments and the answer True are full; the answer False is only right for upper bounds (refuted for lower bounds).",
 "C12": "Sound for all constraints with positive weights; weights 0 give wrong answers and a division by zero (refuted).",
 "C13": "All conversions full, except extend_to_card_constr, which needs a non-negative bound (refuted otherwise).",
 "C14": "Total assignments are full; on partial assignments upper bounds are right, lower bounds and equalities can be misjudged (refuted).",
 "C16": "Literal implies constraint is full, for every constraint the helpers accept. Constraint implies literal holds unless the constraint is an upper bound that always holds; there the helpers over-constrain or underflow (refuted).",
 "C24": "Proved for every history of tree-building calls on the node database (lit_tree, weighted_lit_tree, merge, merge_balanced) and for the totalizer; draining the database and merge_thorough (internal feature) are not modelled.",
 "C25": "The stated equivalence holds for all values that can pass the length limit (all values if there is none); beyond the limit it is refuted: rev_map_round_up returns a value although the mapped value is never reached.",
 "C26": "Proved over all call histories including interleaved extension, reservation, other encodings and user variables.",
 "C27": "Proved over all call histories; refuted in one point: a second encode_both into a new collector emits nothing although the bounds are still reported as encoded (it does not reset as encode_ub and encode_lb do).",
 "C28": "Proved for the default encoding and for every encoding meeting the bounding contract; no restriction on the constraint.",
 "C29": "Proved for every history of new/extend/reserve/encode calls with positive weights and any hash map iteration order. Refuted side claims: bounds encoded earlier can become unavailable when a buffered input is moved into the tree; a weight-0 input panics; from_iter keeps only the last weight of a repeated literal.",
 "C30": "Over all call histories, any iteration order and positive weights: completeness, locality, availability, persistence, trivial bounds are full. Soundness of upper bounds is proved for histories that encode only upper bounds and have no un-encoded inputs; refuted otherwise (a lower bound encoded first marks half adders wrongly, stale comparators are returned after extending, and a second encode_ub does not emit the comparator again). reserve panics with two or more inputs and weight-0 inputs panic (refuted).",
 "C31": "Lower bounds are sound in every history. Availability is proved for histories without upper bounds; refuted for encode_both (comparators already encoded for upper bounds are skipped); completeness needs that inputs are not left un-encoded (refuted otherwise).",
 "C32": "Exact enforcement at the current precision is proved for all inputs, bounds, hash map orders, sorting outcomes and changes of the precision, for histories without reserve and re-encoding; for all histories every enforced bound keeps all assignments meeting it, and bounds in the ranges encoded since the last encode_ub or change of precision are enforced, after changes of the precision only for ranges from 0 or if some divided weight is odd. Refuted: after refining with all weights even a bound in an encoded range is not enforced and coarse bounds need two assumptions; precision 0 makes a built encoding panic; enforce_ub succeeds for outputs that were only reserved, or encoded before a later encode_ub; precisions above every weight or with fewer than two inputs panic or exclude assignments; assumptions for two bounds cannot be combined.",
 "C33": "Proved for every inner encoding meeting the contract (cardinality and pseudo-Boolean Inverted, Double, Card), and for the default pseudo-Boolean encoding. Pseudo-Boolean Inverted and Double need distinct literals per extend call: repeated ones keep only the last weight (refuted). Also refuted: Inverted panics without inputs or for ranges ending before zero, and Inverted::encode_both with an unbounded start does not encode the upper bound zero.",
 "C34": "The full statement is false of the code: equalities of equally weighted literals with an indivisible bound panic, repeated literals lose weight, and weights 0 give too strong clauses or a panic. Proved exact for all other constraints, for every hash map iteration order, for the default encoding and the binary adder; for the dynamic polynomial watchdog, which has upper bounds only, proved for upper bounds.",
 "C35": "Basic, object and reindexing variable managers, over every history of new_var, increase_next_free, mark_used, combine, forget_from and lookups (including the managers combined in). A panic of the index arithmetic is a None result; C35_new_var_defined says exactly when new_var answers.",
 "C36": "Same/new hold for every history; distinctness for every history without combine; reverse for histories of reindex calls only. Refuted: reverse after new_var (the reverse map is not extended), after forget_from (truncated one too long), identity promised by from_next_free, injectivity after combine (reindexing, random and object managers). The randomised manager is proved for every outcome of the shuffle.",
 "C37": "Every history of object_var, new_var, increase_next_free, mark_used and forget_from for distinctness; also with combine for the rest. The keys are any type with decidable equality.",
 "C38": "Join, add, normalize, sanitize, shuffle (any permutation) and evaluate for all formulas; normal forms characterised, normalize decides equality of clause sets.",
 "C39": "Exact for any exact encoders; with the default encoders for constraints without repeated literals, zero weights or indivisible equalities; for the latter three into_cnf is refuted.",
 "C40": "All add_* calls and histories of them; refuted: extending by an instance drops its cardinality and pseudo-Boolean constraints, extending by clauses does not mark variables.",
 "C41": "Sanitize preserves assignments and reaches its normal form when weights are positive and equalities divisible; refuted: panic on an indivisible equality, zero weights, variable 0 used without marking. into_pbs in full.",
 "C42": "All calls (add_soft_lit, add_soft_clause, increase_*, offset) over arbitrary call histories, evaluation, weights, minimum and maximum weight, conversions and collecting are covered. Partial: setting weights when a soft constraint occurs twice in an unweighted objective gives the wrong weight (C42_set_refuted).",
 "C43": "Proved for every hash-map iteration order. Partial: offset lost if all soft constraints vanish, panics for empty soft clauses and for unweighted objectives without soft literals, wrong results for some complementary/repeated unweighted literals (the five refuted theorems); the positive theorem covers all other objectives (norm_fine).",
 "C44": "Partial: empty soft clauses make the relaxation panic (C44_empty_clause_refuted); all other objectives are covered.",
 "C45": "Default encodings and arbitrary exact encoders, single and multiple objectives, compose/decompose. Partial: objective variables that are unknown to the variable manager collide with auxiliary variables (C45_unknown_refuted, C45_multi_unknown_refuted).",
 "C46": "Solution-improving search over every solver meeting the contract of SolverSpec.v, with the generalized totalizer and the binary adder: optimality, attained cost, panics only on solver failures, bound on the number of rounds. Partial: objective literals distinct, positive weights, variables known to the solver. solve_maxsat is proved for soft literals over variables in hard clauses. Refuted: objective variables unknown to the solver (wrong optimum), repeated objective literals (no termination), empty clause in a solver without variables, soft clauses with several literals (the blocking literal has the wrong sign: cost 0 reported although every solution costs 1), no hard clauses, empty soft clause (panic).",
 "C47": "The writer followed by the reader gives the same clauses, and the same instance including the number of variables, whenever writing succeeds; writing succeeds exactly for clausal instances whose variables have DIMACS numbers. Findings: write_cnf writes a header without \"cnf\" that no reader accepts; the largest variable panics.",
 "C48": "Data level exact; instance level same hard clauses, same total weight of every soft clause, same costs up to the offset. Findings: the offset is only written as a comment and lost; write_wcnf comments lack a line feed and swallow the next line.",
 "C49": "As C48 per objective. Findings: offsets are lost, and trailing objectives without soft clauses are lost.",
 "C50": "Proved for all instances whose numbers fit: written constraints are read with the same models, for either setting of no_negated_lits, all three writers (write_sat, write_opt, write_multi_opt) and line-by-line writing; writing succeeds if numbers fit. Partial because the objective comes back only up to a constant: the offset is written as a comment and lost, and with the default options the weights of negated literals are lost as well (C50_offset_refuted, C50_negated_refuted). The exact constant is part of the theorem. Weights above isize::MAX are written and cannot be read (C50_weight_refuted).",
 "C51": "Every file of an independently specified grammar (signs, blanks, several statements per line, comments, CRLF) with <=, >=, > and = is read as the constraints it states. Partial: `<` is read as \"at most the bound plus one\" (C51_less_reads, C51_less_refuted); the largest bound and too large indices panic.",
 "C52": "Minimization objectives are exact for every well-formed file. Maximization objectives are exact for non-negative coefficients; in general the value is off by twice the sum of the negative coefficients (C52_maximize_reads, C52_maximize_refuted).",
 "C53": "Proved for outputs with any comments, any line order and line ends: SAT and PB competition value lines with distinct variables (no line that is a single number of digits 0/1), MaxSAT evaluation lines other than \"0\"; unsatisfiable, unknown, invalid and missing status lines, missing value lines, conflicts; no panic without the letter x. Refuted: arbitrary splits (\"v 10\" is read as values of x1 and x2), \"v 0\", contradicting or malformed status lines, and panic on large PB indices.",
 "C54": "The full claim is refuted both ways (\"v 1 -1\" accepted, \"v -1 -1\" rejected). Proved: exactly the lines in which a variable that is false occurs again are rejected, otherwise the last occurrence decides; lines without repeated variables are accepted with exactly their values; the same for several lines at once and the PB format.",
 "C55": "The simulator over any correct inner solver is a correct solver; with errors, over all histories of calls except two kinds of errors, answers, models and cores are right. Refuted for these two: a failed call under assumptions directly after adding clauses leaves the assumptions in the solver; a failed add_clause after an answer may lose clauses. After a failed call under assumptions, solve may answer satisfiable without a model.",
 "C56": "All results of all call sequences, for every program, equal a direct specification; honest programs give a correct solver. Starting the process, files and pipes are not modelled.",
 "C57": "Proved for the generalized totalizer when no input is buffered, and for Inverted around it strictly inside the range; refuted when inputs are buffered, and at the ends of the range for Inverted (next_lower(0) underflows, next_higher(sum) returns sum).",
 "C58": "Total assignments decided for bounds up to isize::MAX, as in the code's comparison of bounds; partial assignments characterised through the constraints' own evaluation.",
 "C59": "For every history of the re-indexing manager without combine (C36 refutes injectivity after combine); ordered re-indexing from a new manager.",
 "C60": "All three encodings marked Monotone; bounds asked for at any point of any history (upper-bounding histories for the generalized totalizer, all calls for the adder and totalizer). The dynamic polynomial watchdog is documented not to be monotone and is not claimed.",
 "C61": "All layouts with canonical decimal numbers (no leading zeros or plus signs). Findings: clauses spanning lines are split silently, several clauses on a line are rejected (both legal DIMACS), headers announcing more than i32::MAX variables panic.",
 "C62": "Proved at full precision for bounds below the sum of weights, at one precision or if some weight is odd. Refuted: the full range excludes the assignment setting all inputs, below the maximum precision inputs are forced that need not be set, a divisor above 1 is not taken into account, and refining with all weights even excludes assignments.",
 "C63": "IPASIR: all histories. CaDiCaL: as an incremental solver for all histories without temporary clauses, simplification and memory failures (C63_cadical); with these calls, for solve and simplify while no stale answer is cached and for assumptions always (_partial). Refuted: after an unsatisfiable answer due to a temporary clause solve repeats it, simplify and simplify_assumps reuse answers found under other assumptions, out of memory while passing assumptions leaves them pending, values after declare_more_variables abort.",
 "C64": "Answers, cores, and values of positive literals of variables known when the answer was found. Refuted: the value of a negated literal is the value of its variable; values of variables added later are read out of bounds.",
 "C65": "Answers and values for all histories. No abort before the first question; afterwards characterized by state. Refuted: after an interrupted question, or after reserve following an answer, the next clause or question makes Kissat abort the process.",
 "C66": "For programs that do not call detach_learner while a terminator is attached nor use an interrupter after its solver was dropped; both restrictions are necessary (refuted).",
 "C67": "Proved for cnf2opb, wcnf2opb and mcnf2opb for all files in any layout (soft clauses non-empty with positive weights, numbers within range; if negated literals are avoided the cost is shifted by a stated constant). For the other direction proved (_partial) for files whose variables count from 0, output to a file for opb2cnf, coefficients other than 0, distinct variables in each constraint, no `<`. Refuted in full: the option for the first index is ignored by opb2cnf/opb2wcnf/opb2mcnf, opb2cnf writes lines that are not comments before the CNF on the standard output, repeated literals lose constraints in opb2cnf, indivisible equalities make it panic, empty soft clauses make wcnf2opb panic, and constants of objectives are lost.",
 "C68": "Proved for OPB files in which no constraint has a variable twice and no equality with equal coefficients is unsolvable for divisibility (the tool does not sanitize). Found: asked for 0 solutions it prints one; \"v 0\" for a single false variable is not accepted by check-solution, nor are lines with don't-cares; OPB constraints with repeated variables are lost, so that assignments that are no solutions are printed; an indivisible equality makes the tool panic.",
 "C69": "All verdicts are right for well-formed files. Found: value lines for OPB files are always read with variables counted from 1, whatever index is given for the problem; negative coefficients of a maximized objective give wrong values; for partial solutions the values reported are lower bounds only.",
 "C70": "The random permutations are arbitrary functions that permute. The weights of each objective together must fit in a usize.",
 "C71": "Proved for all histories once a range is encoded at the current precision. Refuted before: the precision announced by a fresh encoding need not be smaller than the current one.",
 "C72": "Clauses and variables are proved to be counted exactly for the totalizer, the generalized totalizer (clauses under C26 and C29) and the dynamic polynomial watchdog, in histories without reserve; for all histories the number of clauses is exact and that of variables never too high. Refuted: variables reserved in advance are not counted. The adder's counters are not modelled; those of the at-most-one encodings are covered by C23.",
 "C73": "All three algorithms, the statistics and the whole run from a WCNF file to an MCNF file are modelled. Proved: soundness (the lexicographic order is the original order), the exact thresholds for the BMO and GCD criteria, and for the generalised criterion soundness, and completeness when the number of sums stays within the limit. Refuted: the offset is put on the most important objective although the warning says the lowest ranking one; the multipliers do not give back the original value if there is an offset; OPB output loses the clauses relaxing soft clauses; standard output is mixed with messages; a weighted objective without soft constraints panics.",
 "C74": "The pseudo-Boolean and the clausal encoding are modelled from the problem to the text written (reading problem files is C78). Proved for all problems with at least one item and objective; the clausal one needs weights of at least 1 and variable indices that fit, and uses the dynamic polynomial watchdog for the capacity. Refuted: the clausal encoding panics if an item weighs 0; the pseudo-Boolean one panics without items or objectives.",
 "C75": "Proved for all problems with at least one task and objective whose numbers fit. Refuted: without tasks the constraints are unsatisfiable although the empty assignment is a solution; without objectives the generator panics.",
 "C76": "Proved for all problems with at least one customer, facility and objective whose numbers fit. Refuted: without customers the variables for opening facilities are also used as those of a first customer, so that exactly one facility must be opened.",
 "C77": "Proved for all files with at least two objects; reading floating-point numbers is left open (any function from the rest of the line to scaled values). Refuted: fewer than two objects make the tool panic; a line that cannot be read is skipped without an error.",
 "C78": "One database, one variable manager, any number of `referenced` encoders of both kinds. Findings: `encode_lb` of the shared totalizer resets the \"if\" half of the encoding instead of the \"only if\" half, so that it takes away the encoder's own upper bounds (C78_lb_takes_ub_refuted) and a repeated `encode_lb` returns no clauses (C78_lb_window_refuted; C78_lb_sound_partial is therefore under all clauses returned so far); `encode_ub` of one encoder takes away the upper bounds of every other encoder of the database (C78_other_encoder_refuted); `enforce_lb(0)` panics (C78_lb_zero_refuted); `next_lower` answers one less where 0 is the next lower sum, and panics for 0 (C78_next_lower_refuted).",
 "C79": "All certified calls of the totalizer over all histories, all states of the proof and all interleaved steps of others; the checker's rules are specified in CertSpec and proved sound. Partial: inputs with complementary literals are excluded (the encoder then saturates constraints of degree zero, which the specification of the checker refuses); the text of the proof is not part of these theorems. Refuted: the single-constraint methods of the totalizer panic when no output is needed (bound equal to the number of literals, lower bound zero, one literal).",
 "C80": "Histories of certified calls on the generalized totalizer (extending, reserving, encoding ranges incrementally or anew, other steps in between) are proved for all inputs without complementary literals: same clauses and variables as without a proof, valid steps, right identifiers, no panics, nothing lost. Single constraints are proved for all constraints that simplify (tautologies, unsatisfiable ones, assignments, clauses), for unit weights, and for constraints of all three kinds with different weights in which no literal is heavier than the bound (for lower bounds: than the sum of the weights less the bound). Findings, each with a concrete witness: constraints with one common weight other than one are recorded with a derivation that gives a different constraint than the unit clause (the cardinality encoding is passed the identifier of the weighted constraint); an equality with a negative bound derives the empty clause from its trivially true half; a literal heavier than the bound that is not in the tree makes the certified call panic; a root with a weight other than one leads to a wrong derivation; the single upper bound equal to the weight sum writes a deletion without identifiers; the inverted generalized totalizer prepares lower bound ranges as upper bound ranges (src/encodings/pb/simulators.rs:263, 434), so that the largest bound is not encoded and an empty encoder panics.",
 "C81": "Proved for every history of calls within the contract: no panic, the file is read back as exactly what was asked for, identifiers returned are the checker's, empty ranges are the only ranges refused, expressions of operations derive what they stand for, proof-only variables are new, and the steps of valid derivations (C79, C80) are read back from the file. Refuted: an objective's constant is not written; goals of a new objective are not counted, so later identifiers are wrong; weakening is written without its variable and cannot be read. Missing: definitions of orders, `substitute`, errors of the writer.",
 "C82": "Proved for every C program using one totalizer or one generalized totalizer and for all at-most-one encodings; for the binary adder for programs with upper bounds only, and the lower-bound half for all programs. Refuted: asking for a trivial upper bound (at least the number of inputs) or for the lower bound zero of a totalizer aborts the program, even right after a range with that bound was encoded, because the interface takes the first of no assumptions; C82_totalizer_calls_partial is about the other bounds. Also refuted: reserving variables for a binary adder with inputs aborts, and after encoding a lower bound the assumptions of its upper bounds do not enforce them. For the dynamic polynomial watchdog proved for programs that add different literals with positive weights and then encode ranges at the initial precision; rounding bounds and limiting the range are covered as in C32 and C62; changing the precision and reserving through C are not. Refuted for it: an input added with weight 0 counts with weight 1, and since a new encoding starts at precision 0, setting the full precision 1 that dpw_next_precision gives is refused as a decrease once something is encoded.",
 "C83": "Proved for all instances whose weights fit into isize, for the three ways of treating unused variables, and for files (OPB without `<`, no zero coefficients in objectives). Refuted: the numbers of non-zero entries in the header are wrong for negated soft literals and for repeated literals, and an empty soft clause makes the tool panic. Not modelled: overflow of the sums of coefficients of one column, running out of variables while writing.",
 "C84": "Proved for every back end that keeps the contract in BatsatSpec.v (BatSat's source is not in the repository).",
 "C85": "Proved for indices in range (negative ones if the interpreter adds the length to them) and slices with non-negative steps, for iteration with the newest iterator, and for variable managers. Refuted: negative indices that arrive unchanged and all indices out of range panic; negative steps give wrong elements or panic; extending a clause during iteration is not noticed; a second iterator hides a modification from the first.",
 "C86": "Proved for the totalizer over all Python histories, for the generalized totalizer and the dynamic polynomial watchdog over all histories that start with distinct literals and have positive weights, for the upper bounds of the binary adder in programs without lower bounds and for its lower bounds, clauses and variables in all programs, for any number of at-most-one objects that share a variable manager, and for all literals but the least. Refuted: Lit(-2147483648) is accepted but its to_ipasir panics; the constructors of the weighted encodings drop weights of repeated literals, which extend adds up; the constructor of the dynamic polynomial watchdog panics for a weight 0; the binary adder cannot enforce an equality in a range after encode_both, and enforces wrong upper bounds after encode_lb."
}