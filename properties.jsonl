{"id": "C01", "title": "Literals faithfully pack a variable and a sign", "statement": "Building a literal from a variable index and a sign and then asking for its variable and sign gives back exactly what was put in; negation flips the sign, keeps the variable and is an involution; distinct (variable, sign) pairs give distinct literals, and literals are totally ordered first by variable and then by sign. Construction fails exactly for indices above the maximum index.", "quantifier": "every 32-bit variable index and every sign", "why_tests_cant": "2^32 literals times operations; off-by-one at the maximum index and bit-packing mistakes show only at particular values", "anchors": ["src/types/mod.rs: Lit::new, Lit::new_with_error, Lit::var, Lit::is_neg, Lit::not, Ord for Lit", "src/types/mod.rs: Var::new, Var::MAX_IDX"]}
{"id": "C02", "title": "IPASIR integer conversion is a bijection", "statement": "Converting any literal to its IPASIR/DIMACS integer and back gives the same literal; converting any accepted integer to a literal and back gives the same integer; 0 is rejected.", "quantifier": "every literal and every 32-bit integer", "why_tests_cant": "the domain has 2^32 values and the failing value is an extreme one", "anchors": ["src/types/mod.rs: Lit::to_ipasir, Lit::from_ipasir, Lit::to_ipasir_with_error"]}
{"id": "C03", "title": "Assignments remember exactly what was assigned", "statement": "After assigning a literal, reading its variable gives the literal's sign, reading any other variable gives what it gave before; an assignment collected from literals maps each variable to the last literal given for it; truncation keeps the variables up to the bound and forgets the rest; replacing don't cares only changes don't cares; iterating yields exactly the literals that hold.", "quantifier": "every assignment, variable and sequence of assigned literals", "why_tests_cant": "holds over all histories of assignments and all vector growth patterns", "anchors": ["src/types/mod.rs: Assignment::assign_var, assign_lit, var_value, lit_value, truncate, replace_dont_care, from_iter, iter"]}
{"id": "C04", "title": "Clause normalization is sound and canonical", "statement": "Normalizing a clause returns nothing exactly for tautologies of at least two literals; otherwise the result has exactly the same models, is sorted and free of duplicates, and two non-tautological clauses have the same normal form if and only if they are logically equivalent.", "quantifier": "every clause (list of literals) and every total assignment", "why_tests_cant": "arbitrary length and literal order; canonicity quantifies over pairs of clauses", "anchors": ["src/types/constraints.rs: Clause::normalize"]}
{"id": "C05", "title": "Clause sanitization is sound and stable", "statement": "Sanitizing a clause returns nothing exactly when it contains a literal and its negation; otherwise it keeps the first occurrence of each literal in the original order, removes all later duplicates, and preserves the models.", "quantifier": "every clause and every total assignment", "why_tests_cant": "arbitrary length and duplicate pattern", "anchors": ["src/types/constraints.rs: Clause::sanitize"]}
{"id": "C06", "title": "Removing a literal from a clause", "statement": "remove deletes exactly one occurrence of the literal if there is one and reports whether it did; remove_thorough deletes all of them; no other literal is lost or added.", "quantifier": "every clause and literal", "why_tests_cant": "multiset property over lists of any length", "anchors": ["src/types/constraints.rs: Clause::remove, Clause::remove_thorough"]}
{"id": "C07", "title": "Clause evaluation under partial assignments is sound and exact", "statement": "Evaluating a clause under a partial assignment gives true only if every completion satisfies it, false exactly if every completion falsifies it, and for a clause without complementary literals true exactly if every completion satisfies it; under a total assignment the answer is the truth value.", "quantifier": "every clause, every partial assignment and every completion of it", "why_tests_cant": "quantifies over all completions", "anchors": ["src/types/constraints.rs: Clause::evaluate", "src/types/mod.rs: Assignment::lit_value, TernaryVal"]}
{"id": "C08", "title": "Cardinality constraint predicates decide what they claim", "statement": "is_tautology holds exactly for constraints satisfied by every assignment of literal truth values, is_unsat exactly for those satisfied by none, is_positive_assignment / is_negative_assignment exactly when the constraint forces all literals true / false, is_clause exactly when the constraint is the disjunction of its literals, over any sequence of distinct variables.", "quantifier": "every cardinality constraint and every assignment", "why_tests_cant": "any number of literals and any bound, including bounds beyond the number of literals", "anchors": ["src/types/constraints.rs: CardConstraint::is_tautology, is_unsat, is_positive_assignment, is_negative_assignment, is_clause, into_clause"]}
{"id": "C09", "title": "Inverting and splitting cardinality constraints preserves meaning", "statement": "Inverting an upper (lower) bound gives a lower (upper) bound over negated literals with exactly the same models; splitting an equality gives an upper and a lower bound whose conjunction is equivalent.", "quantifier": "every cardinality constraint and every assignment", "why_tests_cant": "any bound, including ones beyond the number of literals", "anchors": ["src/types/constraints.rs: CardUbConstr::invert, CardLbConstr::invert, CardEqConstr::split"]}
{"id": "C10", "title": "Cardinality constraint evaluation", "statement": "Evaluating a cardinality constraint under an assignment gives true only if all completions satisfy the constraint and false only if none does, and under a total assignment decides it.", "quantifier": "every cardinality constraint and every partial assignment", "why_tests_cant": "quantifies over all completions; boundary values of the count", "anchors": ["src/types/constraints.rs: CardConstraint::evaluate, CardConstraint::count"]}
{"id": "C11", "title": "Pseudo-Boolean constructors keep the meaning of signed weights", "statement": "Constructing a pseudo-Boolean constraint from signed weights and a bound (which flips literals with negative weight and adjusts the bound) gives a constraint satisfied by exactly the assignments that satisfy the signed inequality or equality; adding further signed terms does the same.", "quantifier": "every list of signed weighted literals, every bound and every assignment", "why_tests_cant": "arbitrary mixture of signs, zero weights, repeated literals", "anchors": ["src/types/constraints.rs: PbConstraint::new_ub, new_lb, new_eq, convert_input_lits, add"]}
{"id": "C12", "title": "Pseudo-Boolean predicates decide what they claim", "statement": "is_tautology, is_unsat, is_positive_assignment, is_negative_assignment, is_card and is_clause hold only when the constraint is respectively satisfied by all assignments, by none, by exactly the all-true, by exactly the all-false assignment, equivalent to the extracted cardinality constraint, equivalent to the disjunction of its literals.", "quantifier": "every pseudo-Boolean constraint and every assignment", "why_tests_cant": "any weights and bounds including zero weights and negative bounds", "anchors": ["src/types/constraints.rs: PbConstraint::is_tautology, is_unsat, is_positive_assignment, is_negative_assignment, is_card, is_clause, into_card_constr, find_unit_weight"]}
{"id": "C13", "title": "Pseudo-Boolean conversions preserve meaning", "statement": "normalize, invert, split, extending to a cardinality constraint by repeating literals, and the conversions from clauses and cardinality constraints preserve the set of satisfying assignments.", "quantifier": "every constraint and every assignment", "why_tests_cant": "any weights; repeated literals", "anchors": ["src/types/constraints.rs: PbConstraint::normalize, PbUbConstr::invert, PbLbConstr::invert, PbEqConstr::split, extend_to_card_constr, From<CardConstraint>, From<Clause>"]}
{"id": "C14", "title": "Pseudo-Boolean evaluation", "statement": "Evaluating a pseudo-Boolean constraint gives true only if all completions satisfy it and false only if none does, and decides it under total assignments.", "quantifier": "every constraint and every partial assignment", "why_tests_cant": "quantifies over all completions", "anchors": ["src/types/constraints.rs: PbConstraint::evaluate"]}
{"id": "C15", "title": "Atomic implication helpers mean what their names say", "statement": "Each clause-producing helper (lit/clause/cube implies lit/clause/cube) produces clauses satisfied by exactly the assignments satisfying the named propositional formula.", "quantifier": "every literal, every cube, every clause (any length, possibly empty) and every assignment", "why_tests_cant": "any number of literals in clauses and cubes", "anchors": ["src/encodings/atomics.rs: lit_impl_lit, lit_impl_clause, lit_impl_cube, cube_impl_lit, cube_impl_clause, cube_impl_cube, clause_impl_lit, clause_impl_clause, clause_impl_cube"]}
{"id": "C16", "title": "Constraint-implies-literal helpers mean what their names say", "statement": "The constraints produced for 'cardinality (pseudo-Boolean) constraint implies / is implied by literal' are satisfied by exactly the assignments satisfying that implication.", "quantifier": "every constraint, literal and assignment", "why_tests_cant": "boundary bounds", "anchors": ["src/encodings/atomics.rs: card_impl_lit, lit_impl_card, pb_impl_lit, lit_impl_pb"]}
{"id": "C17", "title": "Pairwise at-most-one encoding is correct", "statement": "Encoding any list of literals with the Pairwise at-most-one encoding yields clauses such that (soundness) every model sets at most one of the listed positions true, (completeness) every assignment with at most one true position extends, by changing only variables freshly taken from the variable manager during the call, to a model, and (freshness) all auxiliary variables are fresh.", "quantifier": "every list of literals (any length, any variables below the next free one), every group size and sub-encoding where applicable, every assignment", "why_tests_cant": "input size unbounded; completeness quantifies over existence of auxiliary assignments", "anchors": ["src/encodings/am1/pairwise.rs"]}
{"id": "C18", "title": "Ladder at-most-one encoding is correct", "statement": "Encoding any list of literals with the Ladder at-most-one encoding yields clauses such that (soundness) every model sets at most one of the listed positions true, (completeness) every assignment with at most one true position extends, by changing only variables freshly taken from the variable manager during the call, to a model, and (freshness) all auxiliary variables are fresh.", "quantifier": "every list of literals (any length, any variables below the next free one), every group size and sub-encoding where applicable, every assignment", "why_tests_cant": "input size unbounded; completeness quantifies over existence of auxiliary assignments", "anchors": ["src/encodings/am1/ladder.rs"]}
{"id": "C19", "title": "Bitwise at-most-one encoding is correct", "statement": "Encoding any list of literals with the Bitwise at-most-one encoding yields clauses such that (soundness) every model sets at most one of the listed positions true, (completeness) every assignment with at most one true position extends, by changing only variables freshly taken from the variable manager during the call, to a model, and (freshness) all auxiliary variables are fresh.", "quantifier": "every list of literals (any length, any variables below the next free one), every group size and sub-encoding where applicable, every assignment", "why_tests_cant": "input size unbounded; completeness quantifies over existence of auxiliary assignments", "anchors": ["src/encodings/am1/bitwise.rs"]}
{"id": "C20", "title": "Commander at-most-one encoding is correct", "statement": "Encoding any list of literals with the Commander at-most-one encoding yields clauses such that (soundness) every model sets at most one of the listed positions true, (completeness) every assignment with at most one true position extends, by changing only variables freshly taken from the variable manager during the call, to a model, and (freshness) all auxiliary variables are fresh.", "quantifier": "every list of literals (any length, any variables below the next free one), every group size and sub-encoding where applicable, every assignment", "why_tests_cant": "input size unbounded; completeness quantifies over existence of auxiliary assignments", "anchors": ["src/encodings/am1/commander.rs"]}
{"id": "C21", "title": "Bimander at-most-one encoding is correct", "statement": "Encoding any list of literals with the Bimander at-most-one encoding yields clauses such that (soundness) every model sets at most one of the listed positions true, (completeness) every assignment with at most one true position extends, by changing only variables freshly taken from the variable manager during the call, to a model, and (freshness) all auxiliary variables are fresh.", "quantifier": "every list of literals (any length, any variables below the next free one), every group size and sub-encoding where applicable, every assignment", "why_tests_cant": "input size unbounded; completeness quantifies over existence of auxiliary assignments", "anchors": ["src/encodings/am1/bimander.rs"]}
{"id": "C22", "title": "Two-product at-most-one encoding is correct", "statement": "Encoding any list of literals with the Two-product at-most-one encoding yields clauses such that (soundness) every model sets at most one of the listed positions true, (completeness) every assignment with at most one true position extends, by changing only variables freshly taken from the variable manager during the call, to a model, and (freshness) all auxiliary variables are fresh.", "quantifier": "every list of literals (any length, any variables below the next free one), every group size and sub-encoding where applicable, every assignment", "why_tests_cant": "input size unbounded; completeness quantifies over existence of auxiliary assignments", "anchors": ["src/encodings/am1/twoproduct.rs"]}
{"id": "C23", "title": "Reported encoding sizes are exact", "statement": "After encoding an at-most-one constraint, the number of clauses and variables the encoder reports equals the number of clauses collected and variables taken from the manager.", "quantifier": "every list of literals", "why_tests_cant": "input size unbounded", "anchors": ["src/encodings/am1/: n_clauses, n_vars"]}
{"id": "C24", "title": "Totalizer trees contain exactly the added literals", "statement": "Building or extending the tree of a totalizer-style encoding produces a tree whose leaves are exactly the given literals, each counted once (with its weight for weighted trees), and never changes nodes built earlier.", "quantifier": "every sequence of extensions with any number of literals", "why_tests_cant": "any number and order of extensions", "anchors": ["src/encodings/nodedb.rs: lit_tree, merge, merge_balanced, weighted_lit_tree, LeafIter", "src/encodings/totdb/mod.rs: Db::insert"]}
{"id": "C25", "title": "Node connections map values consistently", "statement": "For each connection between tree nodes (offset, divisor, multiplier, length limit), mapping a child value up and mapping a bound back down are adjoint: a child with value v reaches mapped value at least w exactly when v is at least the reverse map (rounded up) of w.", "quantifier": "every connection and every value", "why_tests_cant": "all parameters unbounded", "anchors": ["src/encodings/nodedb.rs: NodeCon::map, rev_map, rev_map_round_up, is_possible"]}
{"id": "C26", "title": "Totalizer upper bounds are enforced exactly, for every incremental history", "statement": "For every sequence of adding literals, encoding upper-bound ranges and enforcing bounds: whenever enforce_ub(k) succeeds, every model of all clauses collected so far and the returned assumptions has at most k of the added literals true, and every assignment with at most k true literals extends, on fresh variables only, to a model of the clauses and assumptions.", "quantifier": "every interleaving of extend, encode_ub, encode_ub_change and enforce_ub calls, any literals, any bounds", "why_tests_cant": "histories are unbounded; completeness is an existential over auxiliary variables", "anchors": ["src/encodings/card/totalizer/mod.rs: Totalizer", "src/encodings/totdb/mod.rs: define_unweighted"]}
{"id": "C27", "title": "Totalizer lower bounds are enforced exactly, for every incremental history", "statement": "As for upper bounds with 'at least k' and enforce_lb; upper and lower bounds may be mixed in the same history and enforce_eq gives exactly k.", "quantifier": "every interleaving of extend, encode_ub(_change), encode_lb(_change), enforce_ub and enforce_lb calls", "why_tests_cant": "histories are unbounded; completeness is an existential over auxiliary variables", "anchors": ["src/encodings/card/totalizer/mod.rs: encode_lb, encode_lb_change, enforce_lb, enforce_eq"]}
{"id": "C28", "title": "Encoding a cardinality constraint as CNF", "statement": "Encoding any cardinality constraint with the default encoder yields clauses whose models, restricted to the original variables, are exactly the assignments satisfying the constraint; only fresh variables are added.", "quantifier": "every cardinality constraint, every assignment", "why_tests_cant": "all bounds, including degenerate ones, any number of literals", "anchors": ["src/encodings/card/mod.rs: encode_cardinality_constraint, default_encode_cardinality_constraint, EncodeStatic"]}
{"id": "C29", "title": "Generalized totalizer upper bounds are enforced exactly", "statement": "For every list of weighted literals and every history of adding literals, encoding ranges and enforcing: whenever enforce_ub(k) succeeds, the models of the clauses and assumptions have weighted sum at most k, and every assignment with weighted sum at most k extends on fresh variables to a model.", "quantifier": "every history of extend/encode_ub/encode_ub_change/enforce_ub calls", "why_tests_cant": "any weights and histories", "anchors": ["src/encodings/pb/gte/mod.rs: GeneralizedTotalizer", "src/encodings/totdb/mod.rs: define_weighted"]}
{"id": "C30", "title": "Binary adder upper bounds are enforced exactly", "statement": "Whenever enforce_ub(k) of the binary adder encoding succeeds, the models of the collected clauses and assumptions have weighted sum at most k and every assignment with weighted sum at most k extends on fresh variables to a model.", "quantifier": "every list of weighted literals, every bound, every history of extend, encode_ub(_change), encode_lb(_change) and enforce calls", "why_tests_cant": "any weights (any number of bits), any history", "anchors": ["src/encodings/pb/adder.rs: BinaryAdder, build_structure, encode_ub_change, enforce_ub"]}
{"id": "C31", "title": "Binary adder lower bounds are enforced exactly", "statement": "As for upper bounds, with 'at least k' and enforce_lb.", "quantifier": "every list of weighted literals, every bound, every history", "why_tests_cant": "any weights, any history", "anchors": ["src/encodings/pb/adder.rs: encode_lb_change, enforce_lb"]}
{"id": "C32", "title": "Dynamic polynomial watchdog upper bounds are enforced exactly", "statement": "Whenever enforce_ub(k) of the dynamic polynomial watchdog succeeds, the models of the clauses and assumptions have weighted sum at most k and every assignment with weighted sum at most k extends to a model, where weights are divided by the current precision, also after the precision was refined between encoding calls; bounds in encoded ranges can be enforced; coarse bounds rounded with coarse_ub are the largest coarse bound below.", "quantifier": "every list of weighted literals, every bound, every history of encoding calls and changes of the precision, every hash map order and sorting outcome", "why_tests_cant": "any weights and any sequence of refinements", "anchors": ["src/encodings/pb/dpw/mod.rs: DynamicPolyWatchdog"]}
{"id": "C33", "title": "Inverted and double encoders", "statement": "The inverting simulator turns an upper-bounding encoding into a lower-bounding one (and vice versa) over the same literals with the exact bound; the double simulator enforces upper and lower bounds independently.", "quantifier": "every inner encoder meeting the upper/lower bounding contract, every list of literals and bounds", "why_tests_cant": "quantifies over encoders and bounds", "anchors": ["src/encodings/card/simulators.rs: Inverted, Double", "src/encodings/pb/simulators.rs: Inverted, Double, Card"]}
{"id": "C34", "title": "Encoding a pseudo-Boolean constraint as CNF", "statement": "Encoding any pseudo-Boolean constraint with the default encoder yields clauses whose models, restricted to the original variables, are exactly the assignments satisfying the constraint.", "quantifier": "every pseudo-Boolean constraint and assignment", "why_tests_cant": "any weights, bounds and repeated literals", "anchors": ["src/encodings/pb/mod.rs: encode_pb_constraint, default_encode_pb_constraint"]}
{"id": "C35", "title": "Variable managers only hand out fresh variables", "statement": "A variable returned by new_var was never returned before, never marked as used and is at least every bound given to increase_next_free or combine; the reported maximum and count agree.", "quantifier": "every history of variable manager operations", "why_tests_cant": "unbounded histories", "anchors": ["src/instances/mod.rs: BasicVarManager, ManageVars"]}
{"id": "C36", "title": "Reindexing is injective and reversible", "statement": "Re-indexing maps distinct variables to distinct new variables, the same variable always to the same new one, and the reverse map undoes it.", "quantifier": "every history of reindexing variable manager operations", "why_tests_cant": "unbounded histories", "anchors": ["src/instances/mod.rs: ReindexingVarManager::reindex, reverse"]}
{"id": "C37", "title": "Object variable manager is injective", "statement": "Different objects get different variables, the same object always gets the same one.", "quantifier": "every history of object_var and new_var calls", "why_tests_cant": "unbounded histories", "anchors": ["src/instances/mod.rs: ObjectVarManager::object_var"]}
{"id": "C38", "title": "CNF operations preserve models", "statement": "Joining, normalizing, sanitizing and shuffling a CNF preserve its set of models; evaluating a CNF agrees with satisfaction under total assignments.", "quantifier": "every CNF and assignment", "why_tests_cant": "any formula", "anchors": ["src/instances/sat.rs: Cnf::join, normalize, sanitize, evaluate, add_*"]}
{"id": "C39", "title": "Converting an instance to CNF preserves its models", "statement": "Converting an instance with clauses, cardinality and pseudo-Boolean constraints to CNF gives a formula whose models restricted to the instance's variables are exactly the satisfying assignments of the instance, using fresh variables only.", "quantifier": "every instance whose variable manager knows its variables, every assignment", "why_tests_cant": "any instance", "anchors": ["src/instances/sat.rs: Instance::into_cnf, into_cnf_with_encoders, convert_to_cnf"]}
{"id": "C40", "title": "Adding constraints through the instance API adds exactly that constraint", "statement": "Every add_* method of an instance (units, implications, cardinality, pseudo-Boolean), extending by another instance and combining instances changes the set of satisfying assignments to exactly its intersection with that of the added constraint, and marks the variables as used.", "quantifier": "every instance, constraint and assignment", "why_tests_cant": "any instance", "anchors": ["src/instances/sat.rs: Instance::add_*, extend, BitAnd, Extend"]}
{"id": "C41", "title": "Instance sanitization preserves satisfying assignments", "statement": "Sanitizing an instance (moving degenerate cardinality and pseudo-Boolean constraints into simpler ones, dropping tautologies) preserves the set of satisfying assignments.", "quantifier": "every instance and assignment", "why_tests_cant": "any instance", "anchors": ["src/instances/sat.rs: Instance::sanitize, into_pbs"]}
{"id": "C42", "title": "Objective evaluation and conversions agree", "statement": "The objective value under an assignment is the offset plus the weights of satisfied soft literals plus the weights of falsified soft clauses; adding soft literals and clauses, and converting between weighted and unweighted representation, soft literals and soft clauses changes the value for every assignment exactly as described.", "quantifier": "every objective, every sequence of additions, every assignment", "why_tests_cant": "any history of additions", "anchors": ["src/instances/opt.rs: Objective::evaluate, add_soft_lit, increase_soft_lit, add_soft_clause, increase_soft_clause, into_soft_cls, weighted_2_unweighted, unweighted_2_weighted"]}
{"id": "C43", "title": "Objective normalization preserves every cost", "statement": "Normalizing an objective leaves the objective value of every assignment unchanged.", "quantifier": "every objective and every assignment", "why_tests_cant": "interaction of duplicates, complementary literals and offsets", "anchors": ["src/instances/opt.rs: Objective::normalize"]}
{"id": "C44", "title": "Relaxing soft clauses preserves optimal cost", "statement": "Converting soft clauses into soft relaxation literals and hard clauses gives an objective and clauses such that every assignment extends on fresh variables to one with the same cost, and no model has a lower cost than its restriction.", "quantifier": "every objective and assignment", "why_tests_cant": "any objective", "anchors": ["src/instances/opt.rs: Objective::into_soft_lits, convert_to_soft_lits, soft_clause_to_lit"]}
{"id": "C45", "title": "Optimization instances convert to equivalent CNF-plus-objective form", "statement": "Converting an optimization instance to hard clauses and soft literals (or clauses) preserves the set of feasible assignments over the original variables and the cost of each of them.", "quantifier": "every instance, also when the objective contains variables unknown to the constraints", "why_tests_cant": "variable collisions only show for particular shapes", "anchors": ["src/instances/opt.rs: OptInstance::into_hard_cls_soft_cls, into_hard_cls_soft_lits", "src/instances/multiopt.rs: into_hard_cls_soft_lits"]}
{"id": "C46", "title": "Maximum satisfiability search returns an optimal solution", "statement": "Whenever the solution-improving search returns a solution, it satisfies the hard clauses, the reported cost is its cost, and no other satisfying assignment is cheaper; it returns nothing only if the hard clauses are unsatisfiable.", "quantifier": "every instance and every correct solver (any choice of models)", "why_tests_cant": "quantifies over all solver behaviours", "anchors": ["src/algs/maxsat.rs: SolutionImprovingSearch", "src/instances/opt.rs: OptInstance::solve_maxsat"]}
{"id": "C47", "title": "DIMACS CNF round trip", "statement": "Writing a CNF in DIMACS format and parsing it back gives the same clauses in the same order.", "quantifier": "every CNF", "why_tests_cant": "any number and length of clauses", "anchors": ["src/instances/fio/dimacs.rs: write_cnf_annotated, parse_cnf_with_manager"]}
{"id": "C48", "title": "WCNF round trip", "statement": "Writing hard clauses and weighted soft clauses or literals in WCNF format and parsing it back gives the same hard clauses and the same soft clauses with the same weights.", "quantifier": "every list of hard clauses and soft clauses with non-zero weights", "why_tests_cant": "any size", "anchors": ["src/instances/fio/dimacs.rs: write_wcnf_annotated, parse_wcnf_with_manager"]}
{"id": "C49", "title": "MCNF round trip", "statement": "Writing a multi-objective instance in MCNF format and parsing it back gives the same hard clauses and for each objective the same soft clauses with the same weights.", "quantifier": "every list of hard clauses and objectives", "why_tests_cant": "any size", "anchors": ["src/instances/fio/dimacs.rs: write_mcnf_annotated, parse_mcnf_with_manager"]}
{"id": "C50", "title": "OPB round trip", "statement": "Writing clauses, cardinality and pseudo-Boolean constraints and an objective in OPB format and parsing the result gives constraints and objective with the same satisfying assignments and objective value.", "quantifier": "every instance", "why_tests_cant": "any size", "anchors": ["src/instances/fio/opb.rs: write_sat, write_opt, parse_sat, parse_opt"]}
{"id": "C51", "title": "OPB relational operators mean what they say", "statement": "A parsed OPB constraint with operator <=, >=, <, > or = is satisfied by exactly the assignments for which the left-hand sum stands in that relation to the right-hand side.", "quantifier": "every sum, operator, bound and assignment", "why_tests_cant": "all integer bounds", "anchors": ["src/instances/fio/opb.rs: constraint, operator"]}
{"id": "C52", "title": "OPB objectives keep their value", "statement": "A minimization objective read from an OPB file has, for every assignment, exactly the value of the written sum; a maximization objective has the negated value.", "quantifier": "every sum and assignment", "why_tests_cant": "any coefficients", "anchors": ["src/instances/opt.rs: OptInstance::from_opb", "src/instances/multiopt.rs: from_opb", "src/instances/fio/opb.rs: objective"]}
{"id": "C53", "title": "Solver output parsing", "statement": "Parsing the output of an external solver returns satisfiable with exactly the assignment described by the v-lines, unsatisfiable or unknown according to the s-line, and an error for inconsistent or missing lines.", "quantifier": "every well-formed output, any split of the assignment over v-lines, any comments", "why_tests_cant": "any number of lines", "anchors": ["src/instances/fio/mod.rs: parse_sat_solver_output", "src/types/mod.rs: Assignment::from_vline, extend_from_vline"]}
{"id": "C54", "title": "Value lines with conflicting assignments are rejected and consistent ones accepted", "statement": "A v-line is rejected exactly if it assigns some variable both values.", "quantifier": "every v-line", "why_tests_cant": "any number of literals", "anchors": ["src/types/mod.rs: Assignment::extend_from_vline, extend_sat_comp_vline"]}
{"id": "C55", "title": "Incremental simulation of a non-incremental solver", "statement": "For every history of adding clauses and solving under assumptions, the simulated incremental solver answers satisfiable/unsatisfiable exactly according to the clauses added so far and the given assumptions, models satisfy all of these, and cores are a subset of assumptions that is unsatisfiable with the clauses; this also holds when an inner call fails or is interrupted.", "quantifier": "every history of calls, every correct inner solver, every pattern of inner failures", "why_tests_cant": "unbounded histories and fault patterns", "anchors": ["src/solvers/simulators.rs: Incremental"]}
{"id": "C56", "title": "External solver state machine", "statement": "An external solver returns the answer of the called program for exactly the clauses added before solve, refuses to add clauses or solve after solving, and never reports a model unless the last answer was satisfiable.", "quantifier": "every history of calls and every program output", "why_tests_cant": "unbounded histories", "anchors": ["src/solvers/external.rs: Solver"]}
{"id": "C57", "title": "Next higher/lower values never skip a reachable weighted sum", "statement": "For a pseudo-Boolean encoder, next_higher(v) returns a value above v and next_lower(v) a value below v such that no assignment of the inputs has a weighted sum strictly between v and the returned value, so stepping bounds by these functions never skips a reachable value.", "quantifier": "every history of calls, every value v, every assignment", "why_tests_cant": "values, weights and histories are unbounded", "anchors": ["src/encodings/pb/mod.rs: BoundUpper::next_lower/next_higher (doc 75-85)", "src/encodings/pb/gte/mod.rs: next_higher, next_lower"]}
{"id": "C58", "title": "Evaluating an instance agrees with satisfaction", "statement": "Evaluating an instance under an assignment that gives a value to all its variables returns true exactly if all clauses, cardinality and pseudo-Boolean constraints are satisfied; the search for an unsatisfied constraint returns a constraint of the instance that is not satisfied, and none exactly if there is none.", "quantifier": "every instance and every (partial or total) assignment", "why_tests_cant": "any mixture of constraints and assignments", "anchors": ["src/instances/sat.rs: Instance::evaluate, unsat_constraint"]}
{"id": "C59", "title": "Re-indexing an instance renames its variables injectively", "statement": "Re-indexing an instance renames its variables injectively and consistently with the re-indexing variable manager, so that satisfying assignments correspond one to one; ordered re-indexing preserves the order of the variables and closes all gaps, and can be reversed.", "quantifier": "every instance and every history of the re-indexing variable manager", "why_tests_cant": "any instance and history", "anchors": ["src/instances/sat.rs: Instance::reindex, reindex_ordered, var_set"]}
{"id": "C60", "title": "Monotone encodings: hard upper bounds never conflict with later, tighter ones", "statement": "For the encodings marked Monotone (totalizer, generalized totalizer, binary adder), adding the literals of any number of enforced upper bounds as hard clauses, at any points of a history of calls, never excludes an assignment whose (weighted) sum meets these bounds: it extends to the auxiliary variables so that all clauses ever emitted and all literals of the bounds it meets hold. In particular a hard bound does not conflict with enforcing a tighter one later.", "quantifier": "every history of calls (more inputs, more bounds encoded, incrementally or not) interleaved with requests for bounds, every assignment of the inputs", "why_tests_cant": "histories, inputs and assignments are unbounded; a test only observes one sequence of bounds", "anchors": ["src/encodings/mod.rs: Monotone", "src/encodings/pb/gte/mod.rs: impl Monotone", "src/encodings/pb/adder.rs: impl Monotone", "src/encodings/card/totalizer/mod.rs: impl Monotone"]}
{"id": "C61", "title": "Well-formed DIMACS files are read as what they say", "statement": "Reading a CNF, WCNF (either format) or MCNF file yields exactly the clauses, weights, objective indices and comments it lists, in order, whatever spaces, tabs, blank lines, comment lines, carriage returns it contains and whether or not the last line ends with a line feed.", "quantifier": "every well-formed file: any number of lines, any spacing, any comments", "why_tests_cant": "Test files fix one layout; the layouts are unbounded and the line-based parser interacts with trimming and optional endings.", "anchors": ["src/instances/fio/dimacs.rs: Parser::read_line, forward_to_body, clause, comment, cnf_p_line, wcnf_p_line, hard_clause, soft_clause, mo_soft_clause"]}
{"id": "C62", "title": "Limiting the output range of the dynamic polynomial watchdog loses no solution in the range", "statement": "The clauses added by limit_range(r) keep every assignment whose weighted sum lies in r, together with the assumptions returned by enforce_ub(k) for every k in r that the assignment meets.", "quantifier": "every list of weighted literals, every precision, every range and every history of encoding calls", "why_tests_cant": "an excluded assignment shows only for particular weights, precisions and ranges", "anchors": ["src/encodings/pb/dpw/mod.rs: DynamicPolyWatchdog::limit_range"]}
{"id": "C63", "title": "The IPASIR and CaDiCaL interfaces answer correctly across any history of calls", "statement": "If the library behind the interface keeps its documented promises, every answer of solve and solve_assumps, every value, solution and unsatisfiable core reported is right for the clauses added so far and the assumptions given in that call; for CaDiCaL also after temporary clauses, simplification, reserving and declaring variables, and running out of memory.", "quantifier": "every library that keeps the promises of its interface, every history of calls, clauses, assumptions", "why_tests_cant": "the interface caches answers in an internal state; a stale answer shows only for particular sequences of calls", "anchors": ["ipasir/src/lib.rs: IpasirSolver", "cadical/src/lib.rs: CaDiCaL"]}
{"id": "C64", "title": "The Minisat and Glucose interfaces answer correctly across any history of calls", "statement": "If the solver behind the interface keeps its promises, every answer, every value of a literal, every solution and core reported is right for the clauses added so far and the assumptions of that call.", "quantifier": "every back end keeping its promises, every history of calls", "why_tests_cant": "histories and formulas are unbounded; a wrong value shows only for particular literals and sequences", "anchors": ["minisat/src/core.rs: Minisat", "glucose/src/core.rs: Glucose", "minisat/vendor/minisat/cminisat.cc"]}
{"id": "C65", "title": "The Kissat interface answers correctly and never makes Kissat abort the process", "statement": "Every answer and value is right for the clauses added, and calls that Kissat does not allow (it is not incremental) are answered by an error instead of the abortion of the process.", "quantifier": "every back end keeping its promises, every history of calls", "why_tests_cant": "an abort happens only for particular sequences of calls, e.g. after an interrupted search", "anchors": ["kissat/src/lib.rs: Kissat"]}
{"id": "C66", "title": "Callbacks and interrupters never touch freed memory", "statement": "In every safe program, callbacks attached to a solver are called exactly while they are attached, with the last callback attached, and no call reads or frees memory that was freed before, whatever the order of attaching, detaching, solving, interrupting and dropping.", "quantifier": "every sequence of attach, detach, solve, interrupt and drop calls on any number of solvers", "why_tests_cant": "a dangling pointer shows only for particular sequences and usually without a visible failure", "anchors": ["cadical/src/lib.rs: attach_terminator, detach_terminator, attach_learner, detach_learner, Drop", "ipasir/src/lib.rs: the same", "minisat/src/core.rs: interrupter"]}
{"id": "C67", "title": "Converting files between formats keeps the solutions and their costs", "statement": "The file written by cnf2opb, wcnf2opb, mcnf2opb, opb2cnf, opb2wcnf and opb2mcnf is well-formed; every solution of it is a solution of the input (on the variables of the input) that costs no more, and every solution of the input extends to a solution of the output with the same cost, up to a known constant.", "quantifier": "every well-formed input file in any layout, all options, every iteration order of the hash maps", "why_tests_cant": "the conversions choose among many encodings depending on weights, bounds and signs; a lost solution or a wrong cost shows only for particular inputs", "anchors": ["tools/src/bin/cnf2opb.rs", "tools/src/bin/wcnf2opb.rs", "tools/src/bin/mcnf2opb.rs", "tools/src/bin/opb2cnf.rs", "tools/src/bin/opb2wcnf.rs", "tools/src/bin/opb2mcnf.rs"]}
{"id": "C68", "title": "Enumeration lists every solution once", "statement": "For a well-formed problem file in one of the four formats and a correct incremental solver, every assignment the enumerator prints is a solution no matter how the variables without a value are set, no solution is printed twice, and if the tool ends by itself no solution is missing. It prints no more solutions than asked for. If the solver always answers, the tool ends. The objective values printed are the costs if all variables have values, and check-solution accepts what is printed.", "quantifier": "every well-formed problem file, every correct solver (whatever models it picks), every bound on the number of solutions, every iteration order of the hash maps in the encodings", "why_tests_cant": "Tests enumerate a few instances with one solver; which solutions the solver finds and in which order depends on the solver, and missing or repeated solutions only show when the number of solutions is known.", "anchors": ["tools/src/bin/enumerator.rs", "tools/src/bin/enumerator.rs: Enumerator::next", "src/instances/sat.rs: into_cnf", "src/types/mod.rs: Assignment::into_iter", "tools/src/bin/check-solution.rs"]}
{"id": "C69", "title": "Solution checking gives right verdicts", "statement": "For a well-formed problem file (CNF, WCNF, MCNF or OPB) and a well-formed solution file, check-solution always gives a verdict. An accepted solution satisfies all constraints no matter how the variables without a value are set, and no such assignment costs less than the objective values reported. The constraint reported for a rejected solution is one all solutions satisfy. If the solution has values for all variables, it is accepted exactly if it satisfies the constraints, the values reported are the costs, and the constraint reported is violated.", "quantifier": "every well-formed problem file in one of the four formats, every solution file with value lines in one of the three formats and any other lines", "why_tests_cant": "Tests check a few files; the verdict must be right for every problem, every partial or total solution and every way of laying out the lines.", "anchors": ["tools/src/bin/check-solution.rs", "tools/src/bin/check-solution.rs: parse_instance", "src/types/mod.rs: Assignment::extend_from_vline", "src/instances/sat.rs: unsat_constraint", "src/instances/opt.rs: Objective::evaluate"]}
{"id": "C70", "title": "Shuffling keeps the problem", "statement": "For a well-formed CNF, WCNF or MCNF file the shuffling tool writes a well-formed file of the same format whose hard clauses are those of the input in some order, with the variables renamed one-to-one within the same range, and that gives every clause the same weight in every objective as its origin. Hence solutions and costs of the two files correspond one-to-one.", "quantifier": "every well-formed file, every outcome of the random shuffles, every iteration order of the hash maps", "why_tests_cant": "The tool is random: a test sees one renaming and one order per run; that no random outcome merges two variables or loses a clause or a weight is a statement about all permutations and all files.", "anchors": ["tools/src/bin/shuffledimacs.rs: main", "src/instances/mod.rs: RandReindVarManager", "src/instances/sat.rs: reindex, shuffle, write_dimacs", "src/instances/opt.rs: reindex, shuffle", "src/instances/multiopt.rs: reindex, shuffle"]}
{"id": "C71", "title": "The next precision announced by the dynamic polynomial watchdog is the next useful one", "statement": "After encoding at precision d, is_max_precision tells that the weights divided by d determine all weighted sums exactly; otherwise next_precision is a smaller power of two that set_precision accepts, every precision in between determines the same sums as d, and at the announced one some weight is known better.", "quantifier": "every list of weighted literals and every history of encoding calls and changes of the precision after which something is encoded at the current precision", "why_tests_cant": "skipping a useful precision or stopping early shows only for particular weights and refinements", "anchors": ["src/encodings/pb/dpw/mod.rs: next_precision, is_max_precision, set_precision"]}
{"id": "C72", "title": "Reported numbers of clauses and variables are those handed out", "statement": "n_clauses() and n_vars() of an encoding are the number of clauses it added to the collector and the number of variables it took from the variable manager since it was created.", "quantifier": "every list of inputs and every history of encoding calls", "why_tests_cant": "a call path that forgets to count shows only in particular histories", "anchors": ["src/encodings.rs: EncodeStats", "src/encodings/pb/dpw/mod.rs: n_clauses, n_vars", "src/encodings/pb/gte/mod.rs: n_clauses, n_vars", "src/encodings/card/totalizer/mod.rs: n_clauses, n_vars"]}
{"id": "C73", "title": "Splitting a weighted objective keeps the order of solutions", "statement": "gbmosplit divides the soft constraints of a weighted objective into groups of increasing weight such that minimising the resulting objectives lexicographically, the last one first, orders solutions exactly as the original objective does. The objectives are the groups with their weights divided by the greatest common divisor, the hard constraints are kept, and the reported statistics describe the groups. The splits found are exactly those allowed by the chosen criterion (Boolean multilevel optimisation, greatest common divisor; generalised criterion unless there are too many weight combinations).", "quantifier": "every optimization instance, splitting algorithm, limit on combinations, iteration order of hash maps, unstable sorting order, and every WCNF input file", "why_tests_cant": "whether a split is sound depends on all subset sums of the weights and on all pairs of assignments", "anchors": ["tools/src/bin/gbmosplit.rs: split, split_bmo, split_gbmo, get_sums_splits, get_gcd_splits, check_split, main", "src/instances/opt.rs: Objective::min_weight, max_weight"]}
{"id": "C74", "title": "Generated knapsack benchmarks encode the knapsack problem", "statement": "The file written for a multi-criteria knapsack problem has exactly the choices of items within the capacity as solutions, and its objectives are the values of the items left behind, up to the constant reported as offset. This holds for the pseudo-Boolean encoding and for the clausal encoding, with several objectives and with all objectives in one.", "quantifier": "every knapsack problem with at least one item and one objective, every OPB option, iteration order of hash maps and unstable sorting order", "why_tests_cant": "an encoding that is wrong only for particular weights and capacities passes tests on sample problems", "anchors": ["tools/src/encodings/pb/knapsack.rs: next", "tools/src/encodings/cnf/knapsack.rs: new, next", "tools/src/bin/encodings.rs: main, write_cnf, write_pb"]}
{"id": "C75", "title": "Generated assignment benchmarks encode the assignment problem", "statement": "The OPB file written for a multi-criteria assignment problem has exactly the one-to-one assignments of tasks to agents as solutions, and its objectives are their costs.", "quantifier": "every assignment problem and OPB option", "why_tests_cant": "indices of variables and costs must be right for every size", "anchors": ["tools/src/encodings/pb/assignment.rs: next", "tools/src/encodings/assignment.rs: idx, cost", "tools/src/bin/encodings.rs: main"]}
{"id": "C76", "title": "Generated facility location benchmarks encode the problem", "statement": "The OPB file written for a multi-criteria uncapacitated facility location problem is satisfied exactly by the choices of one opened facility for every customer, and its objectives are the costs of supply and of opening facilities.", "quantifier": "every facility location problem and OPB option", "why_tests_cant": "indices of variables and costs must be right for every size", "anchors": ["tools/src/encodings/pb/facilitylocation.rs: next", "tools/src/encodings/facilitylocation.rs: supply_cost, opening_cost", "tools/src/bin/encodings.rs: main"]}
{"id": "C77", "title": "Generated clustering benchmarks encode correlation clustering", "statement": "The MCNF file written for a list of similarities between named objects is satisfied exactly by the clusterings of the objects that keep all must-link and cannot-link constraints: every solution stands for such a clustering and every such clustering, with any number of clusters, for a solution. Its first objective is the total weight of similar objects in different clusters and its second that of dissimilar objects in one cluster; as WCNF the objective is their sum. If a pair is listed several times, the last entry counts, whatever the order of the names. The file is written unless variables run out.", "quantifier": "every well-formed file of similarities with at least two objects, every offset and both thresholds, every reading of numbers", "why_tests_cant": "variables are created on demand under symbolic names, pairs are stored in a triangular matrix and clusters are binary codes; each must be right for every number of objects", "anchors": ["tools/src/encodings/cnf/clustering.rs: Encoding::new, sim_idx, next, VarManager, saturating_map", "tools/src/bin/encodings.rs: clustering, write_cnf"]}
{"id": "C78", "title": "Encoders that share one node database keep out of each other's way", "statement": "A user may build any trees in one node database, merge them, and create several totalizer and generalized totalizer encoders that borrow it (`referenced::Tot`, `TotCell`, `Gte`, `GteCell`). Whatever calls are made on these encoders, in whatever order and interleaved with building further trees: no call panics; when an encoder gives assumptions for an upper (lower) bound, every model of the clauses that satisfies them respects that bound on the leaves of that encoder's tree; every assignment to the other variables extends, by variables taken by encoders only, to one that satisfies all clauses of all encoders and the assumptions of all bounds it meets; after a range was encoded all bounds in it can be enforced; building trees and adding ranges takes nothing away from any encoder; clauses mention leaves and variables taken by encoders only. The generalized totalizer's next higher and lower values skip no reachable sum.", "quantifier": "all histories of tree building, reservation and encoding calls by any number of encoders of both kinds on one database; all bounds and ranges; all assignments", "why_tests_cant": "The interference between encoders depends on the history of all calls on a shared mutable structure whose nodes are shared between trees; the repository tests one encoder per database.", "anchors": ["src/encodings/card/totalizer/referenced.rs: Tot, TotCell", "src/encodings/pb/gte/referenced.rs: Gte, GteCell", "src/encodings/totdb.rs: Db::reset_encoded, define_unweighted, define_weighted, reserve_vars"]}
{"id": "C79", "title": "Certified totalizer encodings write proofs that check, and the identifiers they return name their clauses", "statement": "When a cardinality encoding is created with a proof writer (`encode_ub_cert`, `encode_ub_change_cert`, `encode_lb_cert`, `encode_lb_change_cert`, `encode_both_cert` on the totalizer): in every history of adding inputs, reserving variables and encoding ranges, with anybody else writing to the same proof between the calls, no call panics; each call yields exactly the clauses and variables of the same call without a proof; every proof step it writes is a valid step of the proof system (cutting planes, reverse unit propagation, redundance-based strengthening) in the state the proof is in; the identifier returned with each clause is the identifier of exactly that clause in the proof; constraints already in the proof stay; and every solution of the proof's constraints survives, changing only variables the encoder took. Encoding one constraint that is in the proof (`encode_cardinality_constraint` of the certified module) does all of this and leaves nothing but the clauses in the proof.", "quantifier": "all histories of certified calls over all inputs without complementary literals, all states the proof may be in and all steps written by others in between; all cardinality constraints; all hash map iteration orders; all assignments", "why_tests_cant": "The proof depends on which outputs were defined in earlier calls and on the identifiers and constraints the proof already has; tests run a checker on a few constraints and never on interleaved histories.", "anchors": ["src/encodings/totdb/cert.rs: define_unweighted_cert, encode_unweighted_cert, define_semantics, delete_semantics", "src/encodings/card/totalizer/mod.rs: cert::BoundUpper, cert::BoundLower for Totalizer", "src/encodings/card/cert.rs: encode_cardinality_constraint", "pigeons/src: Proof, OperationSequence"]}
{"id": "C80", "title": "Certified pseudo-Boolean encodings write proofs that check, and the identifiers they return name their clauses", "statement": "When a pseudo-Boolean constraint that is in the proof is encoded with a proof writer (`encode_pb_constraint` of the certified module), or a range is encoded with `encode_ub_cert`, `encode_ub_change_cert`, `encode_lb_cert`, `encode_lb_change_cert` of the (inverted) generalized totalizer: the call does not panic where the call without a proof does not; it yields the same clauses and variables; every proof step it writes is valid in the state the proof is in; the identifier returned with each clause is the identifier of exactly that clause in the proof; constraints already in the proof stay; nothing but the clauses of a single constraint is left behind; witnesses change new variables only; and the bounds asked for can be enforced afterwards.", "quantifier": "all pseudo-Boolean constraints and all histories of certified calls, all states the proof may be in, all hash map iteration orders", "why_tests_cant": "The repository checks the proofs of a few constraints; weights, multipliers of merged subtrees and literals heavier than the bound change every derivation.", "anchors": ["src/encodings/pb/cert.rs: encode_pb_constraint, encode_constr_cert, encode_eq_constr_cert", "src/encodings/pb/gte/mod.rs: encode_ub_cert, encode_ub_change_cert, encode_ub_constr_cert, output_proof_details", "src/encodings/pb/simulators.rs: Inverted::encode_lb_cert, encode_lb_change_cert, encode_lb_constr_cert", "src/encodings/totdb/cert.rs: define_weighted_cert"]}
{"id": "C81", "title": "A proof file says what the calls of the proof writer asked for", "statement": "Whatever methods of a `pigeons::Proof` are called, in whatever order, with valid variable names, non-zero identifiers, non-empty identifier lists and ranges: no call panics; the file left by `conclude`, or by dropping the proof, is a well-formed VeriPB proof whose header, rules, subproofs, output section and conclusion are exactly those the calls name, with the keywords short or long; ranges of identifiers, in whatever combination of bounds and of absolute and relative identifiers, cover exactly the identifiers meant; every identifier a call returns is the one the checker gives to the constraint that the call added, also after subproofs. A sequence of operations built with `+`, `*`, `/` and `saturate` derives the constraint the expression stands for. Proof-only variables are new and are no variables of the instance. The steps of the certified encodings are read from the file as the steps that C79 and C80 prove valid.", "quantifier": "all histories of calls of the proof writer with all constraints, objectives, substitutions, subproofs, ranges and conclusions; all expressions of operations; all valid derivations of the certified encodings", "why_tests_cant": "the unit tests compare the text of single calls with one expected string; the identifiers returned depend on the whole history, and a checker accepts or misreads the file depending on combinations of bounds, signs and subproofs that no list of examples covers", "anchors": ["pigeons/src/lib.rs: Proof, Proof::new, Proof::conclude, Drop for Proof, write_subproof, operations, reverse_unit_prop, delete_ids, delete_id_range, redundant, dominated, update_objective, new_proof_var", "pigeons/src/types.rs: ConstraintId, Axiom, Substitution, Derivation, ProofGoal, ObjectiveUpdate, OutputGuarantee, Conclusion", "pigeons/src/ops.rs: OperationSequence", "src/types/mod.rs: VarLike for Var"]}
{"id": "C82", "title": "Encodings used through the C interface keep their promises", "statement": "A C program that adds literals as integers, encodes ranges, and asks for assumptions, taking variables of its own in between, gets through the callback a sequence of complete zero-terminated clauses. Under all clauses received, an assumption returned for a bound enforces that bound on the inputs that were accepted; and every assignment to the program's own variables that meets the bound extends to one satisfying the clauses and the assumption. The variables used are those the counter was advanced over. Zero is refused as a literal with an error code that changes nothing. No call within its documented contract aborts; after encoding a range every bound in it can be enforced; lower bounds above the number of inputs are reported as unsatisfiable. At-most-one encodings send clauses satisfied exactly if at most one accepted literal is true.", "quantifier": "all C programs using one totalizer or generalized totalizer: every order of calls, every literal, weight, range and bound; all lists of integers for all at-most-one encodings; all assignments; all iteration orders of hash maps", "why_tests_cant": "the C tests run one fixed sequence of calls per encoding; signs, terminators and variable counts must be right for every clause of every history of incremental calls, and the calls that abort are at bounds no test asks for", "anchors": ["capi/src/encodings/mod.rs: ClauseCollector, VarManager, MaybeError", "capi/src/encodings/card.rs: tot_add, tot_reserve, tot_encode_ub, tot_enforce_ub, tot_encode_lb, tot_enforce_lb", "capi/src/encodings/pb.rs: gte_add, gte_reserve, gte_encode_ub, gte_enforce_ub", "capi/src/encodings/am1.rs: pairwise_add, pairwise_encode, ladder_encode, commander_encode, bimander_encode, bitwise_encode, two_product_encode"]}
{"id": "C83", "title": "Instances written as 0-1 linear programs keep their solutions and costs", "statement": "What mo2ilp writes in either output format can be read as a 0-1 linear program with the announced numbers of variables, constraints and objectives. Every solution of the program satisfies the input and costs at least as much as the input assigns to it in every objective; every solution of the input extends to a solution of the program with the same costs. By default variables that do not occur are 0 in every solution; if they are to be removed, the others are renumbered from zero in the same order. The numbers of non-zero entries announced in the header are those of the matrices.", "quantifier": "all multi-objective instances with weights in range, all well-formed MCNF and OPB files in any layout, all options, all assignments, all iteration orders of hash maps", "why_tests_cant": "negated literals and offsets move parts of coefficients to bounds and to an added column; a sign or column that is wrong changes the solutions only for particular mixes of constraints, weights and repeated literals, and the repository has no test of the tool", "anchors": ["tools/src/bin/mo2ilp.rs: main, parse_instance, write_instance", "rustsat/src/instances/multiopt.rs: MultiOptInstance", "rustsat/src/instances/opt.rs: Objective::convert_to_soft_lits, iter_soft_lits"]}
{"id": "C84", "title": "The BatSat solver answers correctly for every history of calls", "statement": "After any sequence of adding clauses, reserving variables and solving with or without assumptions, \"satisfiable\" comes with values of literals and solutions that satisfy all clauses added (and the assumptions), \"unsatisfiable\" is only answered if no assignment satisfies clauses and assumptions, and then the core consists of negated assumptions and follows from the clauses. The largest variable reported is the largest of all clauses, assumptions and reservations. No call fails; values of unknown variables are \"don't care\"; reserving variables changes neither clauses nor values. The statistics count the answers of all calls that searched.", "quantifier": "all back ends that keep the contract of BatSat, all histories of calls, all clauses, literals and assumptions, all interruptions", "why_tests_cant": "the tests ask a few fixed questions; literals are translated with the opposite sign convention in three places, variables are created on the way, and answers are remembered between calls, so mistakes show only in particular orders of calls", "anchors": ["batsat/src/lib.rs: Solver::solve_track_stats, solve, lit_val, add_clause_ref, reserve, solve_assumps, core, max_var"]}
{"id": "C85", "title": "Clauses, formulas and variable managers behave like Python objects", "statement": "From Python, indexing a clause or formula by an integer or a slice gives the element or elements, or the exception, that a Python sequence gives. An iterator gives the elements in order and then stops, and raises an error once the object was modified after the iterator was created. A variable manager never returns a variable that was used, marked as used or returned before, and every one it returns is a valid literal.", "quantifier": "all clauses and formulas, all keys, with and without debug assertions; all histories of modifications, iterator creations and next calls; all histories of a variable manager", "why_tests_cant": "Slices have unboundedly many combinations of bounds and steps, and errors of iterators need particular interleavings of modifications and several iterators.", "anchors": ["pyapi/src/types.rs Clause::__getitem__, __iter__, extend, ClauseIter::__next__", "pyapi/src/instances.rs Cnf::__getitem__, __iter__, CnfIter::__next__, VarManager"]}
{"id": "C86", "title": "Literals and cardinality encodings used from Python mean what they say", "statement": "From Python, a literal can be made from every nonzero 32-bit integer, gives this integer back, is negated to the literal of the opposite integer and compares like the integers. The assumptions that a totalizer returns for an upper bound, a lower bound or an equality, with the clauses of all formulas it returned, hold for exactly the assignments of the inputs that meet the bound. Its methods never panic, raise a ValueError only for bounds that cannot be met, and enforce every bound of a range that was encoded. The clauses of several at-most-one encodings that share a variable manager together allow exactly the assignments that meet each of them. Giving weighted literals to the constructor of an encoding is the same as adding them later.", "quantifier": "all 32-bit integers; all Python programs that make an encoding, add literals, take variables and encode ranges, also empty ones, in any order, all bounds and all assignments", "why_tests_cant": "The number of histories of calls, inputs, bounds and assignments is unbounded, and the formulas are returned in pieces that only together have a meaning.", "anchors": ["pyapi/src/types.rs Lit", "pyapi/src/encodings/card.rs Totalizer", "pyapi/src/encodings/mod.rs convert_enforce_error", "pyapi/src/encodings/pb.rs GeneralizedTotalizer::new", "src/encodings/card/mod.rs BoundBothIncremental::encode_both_change, BoundBoth::enforce_eq", "pyapi/src/encodings/am1.rs encode"]}
