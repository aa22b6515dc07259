{
 "claims": [
  {
   "property": "C01",
   "status": "partial",
   "theorems": [
    "C01_literal_round_trip",
    "C01_literal_domain",
    "C01_new_limit_refuted",
    "C01_new_agrees",
    "C01_negation",
    "C01_injective",
    "C01_order",
    "C01_add_sub",
    "C01_representation"
   ],
   "note": "Full except for one reading of the documentation of Lit::new, which is refuted: Lit::new panics for Var::MAX_IDX although only larger indices are documented to panic."
  },
  {
   "property": "C02",
   "status": "partial",
   "theorems": [
    "C02_literal_round_trip_partial",
    "C02_integer_round_trip_partial",
    "C02_zero_rejected",
    "C02_round_trip_refuted",
    "C02_records"
   ],
   "note": "Round trips hold for all literals but those over variable MAX_IDX and all integers but i32::MIN; for those to_ipasir panics (refuted)."
  },
  {
   "property": "C03",
   "status": "partial",
   "theorems": [
    "C03_assign_var",
    "C03_assign_lit",
    "C03_assign_lits",
    "C03_truncate",
    "C03_replace_dont_care",
    "C03_into_iter",
    "C03_iter_partial",
    "C03_iter_refuted"
   ],
   "note": "All statements hold; only Assignment::iter (borrowing) panics when variable MAX_IDX is assigned (refuted), into_iter does not."
  },
  {
   "property": "C04",
   "status": "proved",
   "theorems": [
    "C04_normalize_tautology",
    "C04_normalize_sound",
    "C04_normalize_canonical",
    "C04_is_tautology"
   ],
   "note": ""
  },
  {
   "property": "C05",
   "status": "proved",
   "theorems": [
    "C05_sanitize_tautology",
    "C05_sanitize_stable"
   ],
   "note": ""
  },
  {
   "property": "C06",
   "status": "proved",
   "theorems": [
    "C06_remove",
    "C06_remove_thorough"
   ],
   "note": ""
  },
  {
   "property": "C07",
   "status": "proved",
   "theorems": [
    "C07_true_sound",
    "C07_false_sound",
    "C07_dont_care_exact",
    "C07_total"
   ],
   "note": ""
  },
  {
   "property": "C08",
   "status": "partial",
   "theorems": [
    "C08_tautology_sound",
    "C08_tautology_complete_partial",
    "C08_tautology_complete_refuted",
    "C08_unsat_exact",
    "C08_unsat_sound",
    "C08_positive_sound",
    "C08_positive_complete",
    "C08_negative_sound",
    "C08_negative_complete",
    "C08_clause",
    "C08_clause_complete",
    "C08_clause_complete_refuted"
   ],
   "note": "Soundness of all predicates is full. Exactness holds over distinct variables and at least one literal, for clauses over bounds; the empty equality and the unit equality are the counterexamples."
  },
  {
   "property": "C09",
   "status": "partial",
   "theorems": [
    "C09_invert_ub_partial",
    "C09_invert_lb_partial",
    "C09_invert_refuted",
    "C09_split",
    "C09_add",
    "C09_normalize",
    "C09_normalize_canonical_refuted"
   ],
   "note": "Inversion is proved for bounds up to the number of literals; above, the code underflows (refuted). Splitting, adding, normalization are full."
  },
  {
   "property": "C10",
   "status": "partial",
   "theorems": [
    "C10_total",
    "C10_true_sound",
    "C10_false_sound_partial",
    "C10_false_sound_refuted"
   ],
   "note": "Total assignments and the answer True are full; the answer False is only right for upper bounds (refuted for lower bounds)."
  },
  {
   "property": "C11",
   "status": "proved",
   "theorems": [
    "C11_new",
    "C11_add",
    "C11_new_then_add",
    "C11_new_unsigned"
   ],
   "note": ""
  },
  {
   "property": "C12",
   "status": "partial",
   "theorems": [
    "C12_tautology",
    "C12_unsat",
    "C12_positive_partial",
    "C12_negative_partial",
    "C12_assignment_refuted",
    "C12_into_card",
    "C12_is_card_partial",
    "C12_is_card_refuted",
    "C12_clause"
   ],
   "note": "Sound for all constraints with positive weights; weights 0 give wrong answers and a division by zero (refuted)."
  },
  {
   "property": "C13",
   "status": "partial",
   "theorems": [
    "C13_normalize",
    "C13_invert",
    "C13_split",
    "C13_extend_to_card_partial",
    "C13_extend_to_card_refuted",
    "C13_from_clause",
    "C13_from_card"
   ],
   "note": "All conversions full, except extend_to_card_constr, which needs a non-negative bound (refuted otherwise)."
  },
  {
   "property": "C14",
   "status": "partial",
   "theorems": [
    "C14_total",
    "C14_ub_sound_partial",
    "C14_false_sound_refuted"
   ],
   "note": "Total assignments are full; on partial assignments upper bounds are right, lower bounds and equalities can be misjudged (refuted)."
  },
  {
   "property": "C15",
   "status": "proved",
   "theorems": [
    "C15_lit_impl_lit",
    "C15_lit_impl_clause",
    "C15_lit_impl_cube",
    "C15_cube_impl_lit",
    "C15_cube_impl_clause",
    "C15_cube_impl_cube",
    "C15_clause_impl_lit",
    "C15_clause_impl_clause",
    "C15_clause_impl_cube"
   ],
   "note": ""
  },
  {
   "property": "C16",
   "status": "partial",
   "theorems": [
    "C16_lit_impl_card",
    "C16_lit_impl_card_defined",
    "C16_card_impl_lit_partial",
    "C16_card_impl_lit_refuted",
    "C16_card_impl_lit_panics_refuted",
    "C16_lit_impl_pb",
    "C16_pb_impl_lit_partial",
    "C16_pb_impl_lit_refuted"
   ],
   "note": "Literal implies constraint is full, for every constraint the helpers accept. Constraint implies literal holds unless the constraint is an upper bound that always holds; there the helpers over-constrain or underflow (refuted)."
  },
  {
   "property": "C17",
   "status": "proved",
   "theorems": [
    "C17_pairwise"
   ],
   "note": ""
  },
  {
   "property": "C18",
   "status": "proved",
   "theorems": [
    "C18_ladder"
   ],
   "note": ""
  },
  {
   "property": "C19",
   "status": "proved",
   "theorems": [
    "C19_bitwise"
   ],
   "note": ""
  },
  {
   "property": "C20",
   "status": "proved",
   "theorems": [
    "C20_commander"
   ],
   "note": ""
  },
  {
   "property": "C21",
   "status": "proved",
   "theorems": [
    "C21_bimander"
   ],
   "note": ""
  },
  {
   "property": "C22",
   "status": "proved",
   "theorems": [
    "C22_twoproduct"
   ],
   "note": ""
  },
  {
   "property": "C23",
   "status": "proved",
   "theorems": [
    "C23_sizes"
   ],
   "note": ""
  },
  {
   "property": "C24",
   "status": "proved",
   "theorems": [
    "C24_tree_leaves",
    "C24_nodes_kept",
    "C24_totalizer_tree"
   ],
   "note": "Proved for every history of tree-building calls on the node database (lit_tree, weighted_lit_tree, merge, merge_balanced) and for the totalizer; draining the database and merge_thorough (internal feature) are not modelled."
  },
  {
   "property": "C25",
   "status": "partial",
   "theorems": [
    "C25_adjoint",
    "C25_possible",
    "C25_round_trip",
    "C25_round_down",
    "C25_beyond_limit",
    "C25_adjoint_limit_refuted"
   ],
   "note": "The stated equivalence holds for all values that can pass the length limit (all values if there is none); beyond the limit it is refuted: rev_map_round_up returns a value although the mapped value is never reached."
  },
  {
   "property": "C26",
   "status": "proved",
   "theorems": [
    "C26_ub_sound",
    "C26_ub_complete",
    "C26_no_panic",
    "C26_encode_ub_enables",
    "C26_ub_persists",
    "C26_clauses_local",
    "C26_n_clauses"
   ],
   "note": "Proved over all call histories including interleaved extension, reservation, other encodings and user variables."
  },
  {
   "property": "C27",
   "status": "partial",
   "theorems": [
    "C27_lb_sound",
    "C27_lb_complete",
    "C27_unsat_right",
    "C27_encode_lb_enables",
    "C27_lb_persists",
    "C27_enforce_eq",
    "C27_enforce_eq_complete",
    "C27_encode_both_again_refuted"
   ],
   "note": "Proved over all call histories; refuted in one point: a second encode_both into a new collector emits nothing although the bounds are still reported as encoded (it does not reset as encode_ub and encode_lb do)."
  },
  {
   "property": "C28",
   "status": "proved",
   "theorems": [
    "C28_default",
    "C28_any_encoding",
    "C28_encode_constr"
   ],
   "note": "Proved for the default encoding and for every encoding meeting the bounding contract; no restriction on the constraint."
  },
  {
   "property": "C29",
   "status": "partial",
   "theorems": [
    "C29_ub_sound",
    "C29_ub_complete",
    "C29_no_panic",
    "C29_encode_ub_enables",
    "C29_clauses_local",
    "C29_n_clauses",
    "C29_tree",
    "C29_ub_persists",
    "C29_ub_persists_refuted",
    "C29_zero_weight_refuted",
    "C29_from_iter_refuted"
   ],
   "note": "Proved for every history of new/extend/reserve/encode calls with positive weights and any hash map iteration order. Refuted side claims: bounds encoded earlier can become unavailable when a buffered input is moved into the tree; a weight-0 input panics; from_iter keeps only the last weight of a repeated literal."
  },
  {
   "property": "C30",
   "status": "partial",
   "theorems": [
    "C30_no_panic_partial",
    "C30_reserve_refuted",
    "C30_zero_weight_refuted",
    "C30_settled",
    "C30_complete",
    "C30_clauses_local",
    "C30_ub_sound_partial",
    "C30_encode_then_enforce_partial",
    "C30_encode_ub_enables",
    "C30_ub_persists",
    "C30_trivial",
    "C30_lb_then_ub_refuted",
    "C30_stale_refuted",
    "C30_encode_twice_refuted"
   ],
   "note": "Over all call histories, any iteration order and positive weights: completeness, locality, availability, persistence, trivial bounds are full. Soundness of upper bounds is proved for histories that encode only upper bounds and have no un-encoded inputs; refuted otherwise (a lower bound encoded first marks half adders wrongly, stale comparators are returned after extending, and a second encode_ub does not emit the comparator again). reserve panics with two or more inputs and weight-0 inputs panic (refuted)."
  },
  {
   "property": "C31",
   "status": "partial",
   "theorems": [
    "C31_lb_sound",
    "C31_encode_lb_enables_partial",
    "C31_lb_persists",
    "C31_trivial",
    "C31_encode_both_refuted",
    "C31_stale_refuted"
   ],
   "note": "Lower bounds are sound in every history. Availability is proved for histories without upper bounds; refuted for encode_both (comparators already encoded for upper bounds are skipped); completeness needs that inputs are not left un-encoded (refuted otherwise)."
  },
  {
   "property": "C32",
   "status": "partial",
   "theorems": [
    "C32_enforced_bound_exact",
    "C32_encoded_bound_enforced",
    "C32_refined_bound_enforced_partial",
    "C32_enforced_bound_complete",
    "C32_no_panic",
    "C32_clauses_local",
    "C32_set_precision",
    "C32_change_precision",
    "C32_coarse_ub",
    "C32_refined_range_refuted",
    "C32_zero_precision_refuted",
    "C32_coarse_ub_refined_refuted",
    "C32_reserved_bound_refuted",
    "C32_reencoded_bound_refuted",
    "C32_joint_bounds_refuted",
    "C32_large_precision_refuted",
    "C32_empty_precision_refuted",
    "C32_single_precision_refuted"
   ],
   "note": "Exact enforcement at the current precision is proved for all inputs, bounds, hash map orders, sorting outcomes and changes of the precision, for histories without reserve and re-encoding; for all histories every enforced bound keeps all assignments meeting it, and bounds in the ranges encoded since the last encode_ub or change of precision are enforced, after changes of the precision only for ranges from 0 or if some divided weight is odd. Refuted: after refining with all weights even a bound in an encoded range is not enforced and coarse bounds need two assumptions; precision 0 makes a built encoding panic; enforce_ub succeeds for outputs that were only reserved, or encoded before a later encode_ub; precisions above every weight or with fewer than two inputs panic or exclude assignments; assumptions for two bounds cannot be combined."
  },
  {
   "property": "C33",
   "status": "partial",
   "theorems": [
    "C33_card_inverted_lower",
    "C33_card_inverted_upper",
    "C33_card_inverted_all",
    "C33_card_inverted_persists",
    "C33_card_inverted_no_panic",
    "C33_card_inverted_both",
    "C33_inverted_no_panic_refuted",
    "C33_inverted_both_refuted",
    "C33_pb_inverted_lower",
    "C33_pb_inverted_upper",
    "C33_pb_inverted_all",
    "C33_card_double",
    "C33_pb_double",
    "C33_card_double_persists",
    "C33_default_pb",
    "C33_default_pb_no_panic",
    "C33_duplicates_refuted",
    "C33_pb_card",
    "C33_pb_card_calls",
    "C33_pb_card_totalizer"
   ],
   "note": "Proved for every inner encoding meeting the contract (cardinality and pseudo-Boolean Inverted, Double, Card), and for the default pseudo-Boolean encoding. Pseudo-Boolean Inverted and Double need distinct literals per extend call: repeated ones keep only the last weight (refuted). Also refuted: Inverted panics without inputs or for ranges ending before zero, and Inverted::encode_both with an unbounded start does not encode the upper bound zero."
  },
  {
   "property": "C34",
   "status": "partial",
   "theorems": [
    "C34_binary_adder_partial",
    "C34_binary_adder_constr_partial",
    "C34_dpw_upper_partial",
    "C34_default_partial",
    "C34_any_encoding_partial",
    "C34_encode_constr_partial",
    "C34_card_totalizer_partial",
    "C34_indivisible_refuted",
    "C34_duplicates_refuted",
    "C34_zero_weight_refuted"
   ],
   "note": "The full statement is false of the code: equalities of equally weighted literals with an indivisible bound panic, repeated literals lose weight, and weights 0 give too strong clauses or a panic. Proved exact for all other constraints, for every hash map iteration order, for the default encoding and the binary adder; for the dynamic polynomial watchdog, which has upper bounds only, proved for upper bounds."
  },
  {
   "property": "C35",
   "status": "proved",
   "theorems": [
    "C35_basic",
    "C35_objects",
    "C35_reindexing",
    "C35_new_var_defined"
   ],
   "note": "Basic, object and reindexing variable managers, over every history of new_var, increase_next_free, mark_used, combine, forget_from and lookups (including the managers combined in). A panic of the index arithmetic is a None result; C35_new_var_defined says exactly when new_var answers."
  },
  {
   "property": "C36",
   "status": "partial",
   "theorems": [
    "C36_same",
    "C36_new",
    "C36_distinct_partial",
    "C36_reverse_partial",
    "C36_reverse_lit_partial",
    "C36_reverse_refuted",
    "C36_forget_refuted",
    "C36_start_refuted",
    "C36_combine_refuted",
    "C36_random",
    "C36_random_combine_refuted",
    "C36_objects_combine_refuted"
   ],
   "note": "Same/new hold for every history; distinctness for every history without combine; reverse for histories of reindex calls only. Refuted: reverse after new_var (the reverse map is not extended), after forget_from (truncated one too long), identity promised by from_next_free, injectivity after combine (reindexing, random and object managers). The randomised manager is proved for every outcome of the shuffle."
  },
  {
   "property": "C37",
   "status": "proved",
   "theorems": [
    "C37_same",
    "C37_new",
    "C37_distinct"
   ],
   "note": "Every history of object_var, new_var, increase_next_free, mark_used and forget_from for distinctness; also with combine for the rest. The keys are any type with decidable equality."
  },
  {
   "property": "C38",
   "status": "proved",
   "theorems": [
    "C38_join",
    "C38_add_clause",
    "C38_normalize",
    "C38_normalize_form",
    "C38_normalize_canonical",
    "C38_sanitize",
    "C38_sanitize_form",
    "C38_shuffle",
    "C38_evaluate",
    "C38_evaluate_total",
    "C38_evaluate_cases"
   ],
   "note": "Join, add, normalize, sanitize, shuffle (any permutation) and evaluate for all formulas; normal forms characterised, normalize decides equality of clause sets."
  },
  {
   "property": "C39",
   "status": "partial",
   "theorems": [
    "C39_any_encoders",
    "C39_default_partial",
    "C39_indivisible_refuted",
    "C39_duplicates_refuted"
   ],
   "note": "Exact for any exact encoders; with the default encoders for constraints without repeated literals, zero weights or indivisible equalities; for the latter three into_cnf is refuted."
  },
  {
   "property": "C40",
   "status": "partial",
   "theorems": [
    "C40_adds_partial",
    "C40_adds_history_partial",
    "C40_marks_partial",
    "C40_marks_history_partial",
    "C40_new",
    "C40_from_clauses",
    "C40_from_cards",
    "C40_from_pbs",
    "C40_from_cnf",
    "C40_extend_refuted",
    "C40_marks_refuted"
   ],
   "note": "All add_* calls and histories of them; refuted: extending by an instance drops its cardinality and pseudo-Boolean constraints, extending by clauses does not mark variables."
  },
  {
   "property": "C41",
   "status": "partial",
   "theorems": [
    "C41_sanitize_partial",
    "C41_into_pbs",
    "C41_indivisible_refuted",
    "C41_zero_weight_refuted",
    "C41_marks_refuted"
   ],
   "note": "Sanitize preserves assignments and reaches its normal form when weights are positive and equalities divisible; refuted: panic on an indivisible equality, zero weights, variable 0 used without marking. into_pbs in full."
  },
  {
   "property": "C42",
   "status": "partial",
   "theorems": [
    "C42_max_weight",
    "C42_min_weight",
    "C42_history",
    "C42_calls_partial",
    "C42_distinct",
    "C42_set_refuted",
    "C42_returned_partial",
    "C42_lit_weight",
    "C42_clause_weight",
    "C42_evaluate",
    "C42_evaluate_lower",
    "C42_constant",
    "C42_bounds",
    "C42_max_var",
    "C42_to_weighted",
    "C42_to_unweighted",
    "C42_soft_clauses",
    "C42_unweighted_soft_clauses",
    "C42_iter_soft_lits",
    "C42_iter_soft_clauses",
    "C42_collect"
   ],
   "note": "All calls (add_soft_lit, add_soft_clause, increase_*, offset) over arbitrary call histories, evaluation, weights, minimum and maximum weight, conversions and collecting are covered. Partial: setting weights when a soft constraint occurs twice in an unweighted objective gives the wrong weight (C42_set_refuted)."
  },
  {
   "property": "C43",
   "status": "partial",
   "theorems": [
    "C43_normalize_partial",
    "C43_offset_refuted",
    "C43_empty_clause_refuted",
    "C43_no_literals_refuted",
    "C43_truncate_refuted",
    "C43_twice_refuted"
   ],
   "note": "Proved for every hash-map iteration order. Partial: offset lost if all soft constraints vanish, panics for empty soft clauses and for unweighted objectives without soft literals, wrong results for some complementary/repeated unweighted literals (the five refuted theorems); the positive theorem covers all other objectives (norm_fine)."
  },
  {
   "property": "C44",
   "status": "partial",
   "theorems": [
    "C44_relax_partial",
    "C44_soft_lits_partial",
    "C44_unweighted_soft_lits_partial",
    "C44_empty_clause_refuted"
   ],
   "note": "Partial: empty soft clauses make the relaxation panic (C44_empty_clause_refuted); all other objectives are covered."
  },
  {
   "property": "C45",
   "status": "partial",
   "theorems": [
    "C45_soft_cls_partial",
    "C45_soft_lits_partial",
    "C45_encoders_partial",
    "C45_multi_soft_cls_partial",
    "C45_multi_soft_lits_partial",
    "C45_compose",
    "C45_multi_compose",
    "C45_unknown_refuted",
    "C45_multi_unknown_refuted"
   ],
   "note": "Default encodings and arbitrary exact encoders, single and multiple objectives, compose/decompose. Partial: objective variables that are unknown to the variable manager collide with auxiliary variables (C45_unknown_refuted, C45_multi_unknown_refuted)."
  },
  {
   "property": "C46",
   "status": "partial",
   "theorems": [
    "C46_search_gte_partial",
    "C46_search_adder_partial",
    "C46_unknown_variable_refuted",
    "C46_duplicate_refuted",
    "C46_empty_clause_refuted",
    "C46_solve_maxsat_partial",
    "C46_soft_clause_refuted",
    "C46_free_variable_refuted",
    "C46_no_clauses_refuted",
    "C46_empty_soft_clause_refuted"
   ],
   "note": "Solution-improving search over every solver meeting the contract of SolverSpec.v, with the generalized totalizer and the binary adder: optimality, attained cost, panics only on solver failures, bound on the number of rounds. Partial: objective literals distinct, positive weights, variables known to the solver. solve_maxsat is proved for soft literals over variables in hard clauses. Refuted: objective variables unknown to the solver (wrong optimum), repeated objective literals (no termination), empty clause in a solver without variables, soft clauses with several literals (the blocking literal has the wrong sign: cost 0 reported although every solution costs 1), no hard clauses, empty soft clause (panic)."
  },
  {
   "property": "C47",
   "status": "partial",
   "theorems": [
    "C47_cnf_round_trip",
    "C47_instance_round_trip",
    "C47_write_ok",
    "C47_write_refuted",
    "C47_lines_refuted"
   ],
   "note": "The writer followed by the reader gives the same clauses, and the same instance including the number of variables, whenever writing succeeds; writing succeeds exactly for clausal instances whose variables have DIMACS numbers. Findings: write_cnf writes a header without \"cnf\" that no reader accepts; the largest variable panics."
  },
  {
   "property": "C48",
   "status": "partial",
   "theorems": [
    "C48_wcnf_round_trip",
    "C48_instance_round_trip",
    "C48_write_ok",
    "C48_offset_refuted",
    "C48_lines_partial",
    "C48_lines_refuted"
   ],
   "note": "Data level exact; instance level same hard clauses, same total weight of every soft clause, same costs up to the offset. Findings: the offset is only written as a comment and lost; write_wcnf comments lack a line feed and swallow the next line."
  },
  {
   "property": "C49",
   "status": "partial",
   "theorems": [
    "C49_mcnf_round_trip",
    "C49_instance_round_trip",
    "C49_write_ok",
    "C49_empty_objective_refuted",
    "C49_lines"
   ],
   "note": "As C48 per objective. Findings: offsets are lost, and trailing objectives without soft clauses are lost."
  },
  {
   "property": "C50",
   "status": "partial",
   "theorems": [
    "C50_sat_round_trip",
    "C50_write_ok",
    "C50_lines_round_trip_partial",
    "C50_opt_round_trip_partial",
    "C50_opt_write_ok",
    "C50_offset_refuted",
    "C50_negated_refuted",
    "C50_weight_refuted",
    "C50_multi_round_trip_partial"
   ],
   "note": "Proved for all instances whose numbers fit: written constraints are read with the same models, for either setting of no_negated_lits, all three writers (write_sat, write_opt, write_multi_opt) and line-by-line writing; writing succeeds if numbers fit. Partial because the objective comes back only up to a constant: the offset is written as a comment and lost, and with the default options the weights of negated literals are lost as well (C50_offset_refuted, C50_negated_refuted). The exact constant is part of the theorem. Weights above isize::MAX are written and cannot be read (C50_weight_refuted)."
  },
  {
   "property": "C51",
   "status": "partial",
   "theorems": [
    "C51_constraints_partial",
    "C51_less_reads",
    "C51_less_refuted",
    "C51_panic_refuted"
   ],
   "note": "Every file of an independently specified grammar (signs, blanks, several statements per line, comments, CRLF) with <=, >=, > and = is read as the constraints it states. Partial: `<` is read as \"at most the bound plus one\" (C51_less_reads, C51_less_refuted); the largest bound and too large indices panic."
  },
  {
   "property": "C52",
   "status": "partial",
   "theorems": [
    "C52_minimize",
    "C52_maximize_partial",
    "C52_maximize_reads",
    "C52_maximize_refuted",
    "C52_multi_partial",
    "C52_one_objective"
   ],
   "note": "Minimization objectives are exact for every well-formed file. Maximization objectives are exact for non-negative coefficients; in general the value is off by twice the sum of the negative coefficients (C52_maximize_reads, C52_maximize_refuted)."
  },
  {
   "property": "C53",
   "status": "partial",
   "theorems": [
    "C53_sat_partial",
    "C53_bits_partial",
    "C53_conflict",
    "C53_unsat",
    "C53_unknown",
    "C53_invalid_s_line",
    "C53_no_s_line",
    "C53_no_v_line",
    "C53_no_panic_partial",
    "C53_split_refuted",
    "C53_zero_refuted",
    "C53_inconsistent_refuted",
    "C53_panic_refuted"
   ],
   "note": "Proved for outputs with any comments, any line order and line ends: SAT and PB competition value lines with distinct variables (no line that is a single number of digits 0/1), MaxSAT evaluation lines other than \"0\"; unsatisfiable, unknown, invalid and missing status lines, missing value lines, conflicts; no panic without the letter x. Refuted: arbitrary splits (\"v 10\" is read as values of x1 and x2), \"v 0\", contradicting or malformed status lines, and panic on large PB indices."
  },
  {
   "property": "C54",
   "status": "partial",
   "theorems": [
    "C54_accepted_partial",
    "C54_pb_accepted_partial",
    "C54_rejected_exactly",
    "C54_pb_rejected_exactly",
    "C54_lines",
    "C54_pb_lines",
    "C54_conflict_refuted",
    "C54_duplicate_refuted",
    "C54_bits_lines_refuted"
   ],
   "note": "The full claim is refuted both ways (\"v 1 -1\" accepted, \"v -1 -1\" rejected). Proved: exactly the lines in which a variable that is false occurs again are rejected, otherwise the last occurrence decides; lines without repeated variables are accepted with exactly their values; the same for several lines at once and the PB format."
  },
  {
   "property": "C55",
   "status": "partial",
   "theorems": [
    "C55_correct",
    "C55_reliable",
    "C55_solve_partial",
    "C55_assumptions_partial",
    "C55_core_partial",
    "C55_assumptions_refuted",
    "C55_add_clause_refuted",
    "C55_model_refuted"
   ],
   "note": "The simulator over any correct inner solver is a correct solver; with errors, over all histories of calls except two kinds of errors, answers, models and cores are right. Refuted for these two: a failed call under assumptions directly after adding clauses leaves the assumptions in the solver; a failed add_clause after an answer may lose clauses. After a failed call under assumptions, solve may answer satisfiable without a model."
  },
  {
   "property": "C56",
   "status": "proved",
   "theorems": [
    "C56_calls",
    "C56_variables",
    "C56_correct"
   ],
   "note": "All results of all call sequences, for every program, equal a direct specification; honest programs give a correct solver. Starting the process, files and pipes are not modelled."
  },
  {
   "property": "C57",
   "status": "partial",
   "theorems": [
    "C57_next_higher",
    "C57_next_lower",
    "C57_buffered_refuted",
    "C57_inverted_next_higher",
    "C57_inverted_next_lower",
    "C57_inverted_ends_refuted"
   ],
   "note": "Proved for the generalized totalizer when no input is buffered, and for Inverted around it strictly inside the range; refuted when inputs are buffered, and at the ends of the range for Inverted (next_lower(0) underflows, next_higher(sum) returns sum)."
  },
  {
   "property": "C58",
   "status": "proved",
   "theorems": [
    "C58_evaluate",
    "C58_evaluate_cases",
    "C58_unsat_constraint",
    "C58_cost",
    "C58_multi_cost",
    "C58_cost_lower"
   ],
   "note": "Total assignments decided for bounds up to isize::MAX, as in the code's comparison of bounds; partial assignments characterised through the constraints' own evaluation."
  },
  {
   "property": "C59",
   "status": "proved",
   "theorems": [
    "C59_reindex",
    "C59_models",
    "C59_ordered",
    "C59_defined",
    "C59_objectives",
    "C59_objective_value",
    "C59_objectives_ordered"
   ],
   "note": "For every history of the re-indexing manager without combine (C36 refutes injectivity after combine); ordered re-indexing from a new manager."
  },
  {
   "property": "C60",
   "status": "proved",
   "theorems": [
    "C60_binary_adder",
    "C60_generalized_totalizer",
    "C60_totalizer"
   ],
   "note": "All three encodings marked Monotone; bounds asked for at any point of any history (upper-bounding histories for the generalized totalizer, all calls for the adder and totalizer). The dynamic polynomial watchdog is documented not to be monotone and is not claimed."
  },
  {
   "property": "C61",
   "status": "partial",
   "theorems": [
    "C61_cnf_file",
    "C61_wcnf_file",
    "C61_wcnf_pre22_file",
    "C61_mcnf_file",
    "C61_clause_over_lines_refuted",
    "C61_clauses_on_a_line_refuted",
    "C61_header_refuted"
   ],
   "note": "All layouts with canonical decimal numbers (no leading zeros or plus signs). Findings: clauses spanning lines are split silently, several clauses on a line are rejected (both legal DIMACS), headers announcing more than i32::MAX variables panic."
  },
  {
   "property": "C62",
   "status": "partial",
   "theorems": [
    "C62_limit_range_keeps_partial",
    "C62_full_range_refuted",
    "C62_lower_precision_refuted",
    "C62_divisor_refuted",
    "C62_refined_refuted"
   ],
   "note": "Proved at full precision for bounds below the sum of weights, at one precision or if some weight is odd. Refuted: the full range excludes the assignment setting all inputs, below the maximum precision inputs are forced that need not be set, a divisor above 1 is not taken into account, and refining with all weights even excludes assignments."
  },
  {
   "property": "C63",
   "status": "partial",
   "theorems": [
    "C63_ipasir",
    "C63_cadical",
    "C63_cadical_solve_partial",
    "C63_cadical_simplify_partial",
    "C63_cadical_assumptions_partial",
    "C63_cadical_simplify_assumptions_partial",
    "C63_temporary_clause_refuted",
    "C63_temporary_clause_sticks",
    "C63_simplify_refuted",
    "C63_simplify_assumptions_refuted",
    "C63_out_of_memory_refuted",
    "C63_declare_refuted"
   ],
   "note": "IPASIR: all histories. CaDiCaL: as an incremental solver for all histories without temporary clauses, simplification and memory failures (C63_cadical); with these calls, for solve and simplify while no stale answer is cached and for assumptions always (_partial). Refuted: after an unsatisfiable answer due to a temporary clause solve repeats it, simplify and simplify_assumps reuse answers found under other assumptions, out of memory while passing assumptions leaves them pending, values after declare_more_variables abort."
  },
  {
   "property": "C64",
   "status": "partial",
   "theorems": [
    "C64_minisat_partial",
    "C64_negated_literals",
    "C64_negated_literal_refuted",
    "C64_unknown_variable_refuted"
   ],
   "note": "Answers, cores, and values of positive literals of variables known when the answer was found. Refuted: the value of a negated literal is the value of its variable; values of variables added later are read out of bounds."
  },
  {
   "property": "C65",
   "status": "partial",
   "theorems": [
    "C65_kissat",
    "C65_no_abort_partial",
    "C65_after_question",
    "C65_interrupted_refuted",
    "C65_reserve_refuted"
   ],
   "note": "Answers and values for all histories. No abort before the first question; afterwards characterized by state. Refuted: after an interrupted question, or after reserve following an answer, the next clause or question makes Kissat abort the process."
  },
  {
   "property": "C66",
   "status": "partial",
   "theorems": [
    "C66_callbacks_partial",
    "C66_detach_learner_refuted",
    "C66_interrupter_refuted"
   ],
   "note": "For programs that do not call detach_learner while a terminator is attached nor use an interrupter after its solver was dropped; both restrictions are necessary (refuted)."
  },
  {
   "property": "C67",
   "status": "partial",
   "theorems": [
    "C67_cnf2opb",
    "C67_wcnf2opb",
    "C67_mcnf2opb",
    "C67_empty_soft_refuted",
    "C67_opb2cnf_partial",
    "C67_opb2wcnf_partial",
    "C67_opb2mcnf_partial",
    "C67_first_index_refuted",
    "C67_stdout_refuted",
    "C67_repeated_refuted",
    "C67_indivisible_refuted",
    "C67_offset_refuted"
   ],
   "note": "Proved for cnf2opb, wcnf2opb and mcnf2opb for all files in any layout (soft clauses non-empty with positive weights, numbers within range; if negated literals are avoided the cost is shifted by a stated constant). For the other direction proved (_partial) for files whose variables count from 0, output to a file for opb2cnf, coefficients other than 0, distinct variables in each constraint, no `<`. Refuted in full: the option for the first index is ignored by opb2cnf/opb2wcnf/opb2mcnf, opb2cnf writes lines that are not comments before the CNF on the standard output, repeated literals lose constraints in opb2cnf, indivisible equalities make it panic, empty soft clauses make wcnf2opb panic, and constants of objectives are lost."
  },
  {
   "property": "C68",
   "status": "partial",
   "theorems": [
    "C68_enumerates",
    "C68_ends",
    "C68_printed",
    "C68_until_refuted",
    "C68_one_variable_refuted",
    "C68_dont_care_refuted",
    "C68_repeated_refuted",
    "C68_indivisible_refuted"
   ],
   "note": "Proved for OPB files in which no constraint has a variable twice and no equality with equal coefficients is unsolvable for divisibility (the tool does not sanitize). Found: asked for 0 solutions it prints one; \"v 0\" for a single false variable is not accepted by check-solution, nor are lines with don't-cares; OPB constraints with repeated variables are lost, so that assignments that are no solutions are printed; an indivisible equality makes the tool panic."
  },
  {
   "property": "C69",
   "status": "partial",
   "theorems": [
    "C69_verdict",
    "C69_accepted",
    "C69_rejected",
    "C69_total",
    "C69_first_index_refuted",
    "C69_maximize_refuted",
    "C69_cost_refuted"
   ],
   "note": "All verdicts are right for well-formed files. Found: value lines for OPB files are always read with variables counted from 1, whatever index is given for the problem; negative coefficients of a maximized objective give wrong values; for partial solutions the values reported are lower bounds only."
  },
  {
   "property": "C70",
   "status": "proved",
   "theorems": [
    "C70_cnf",
    "C70_wcnf",
    "C70_mcnf",
    "C70_corresponds"
   ],
   "note": "The random permutations are arbitrary functions that permute. The weights of each objective together must fit in a usize."
  },
  {
   "property": "C71",
   "status": "partial",
   "theorems": [
    "C71_next_precision",
    "C71_unencoded_refuted"
   ],
   "note": "Proved for all histories once a range is encoded at the current precision. Refuted before: the precision announced by a fresh encoding need not be smaller than the current one."
  },
  {
   "property": "C72",
   "status": "partial",
   "theorems": [
    "C72_dpw_statistics",
    "C72_dpw_variables",
    "C72_dpw_reserved_refuted",
    "C72_gte_variables",
    "C72_totalizer_variables",
    "C72_totalizer_reserved_refuted"
   ],
   "note": "Clauses and variables are proved to be counted exactly for the totalizer, the generalized totalizer (clauses under C26 and C29) and the dynamic polynomial watchdog, in histories without reserve; for all histories the number of clauses is exact and that of variables never too high. Refuted: variables reserved in advance are not counted. The adder's counters are not modelled; those of the at-most-one encodings are covered by C23."
  },
  {
   "property": "C73",
   "status": "partial",
   "theorems": [
    "C73_split",
    "C73_unweighted",
    "C73_bmo",
    "C73_gcd",
    "C73_gbmo",
    "C73_file",
    "C73_offset_refuted",
    "C73_multipliers_refuted",
    "C73_opb_refuted",
    "C73_stdout_refuted",
    "C73_empty_refuted"
   ],
   "note": "All three algorithms, the statistics and the whole run from a WCNF file to an MCNF file are modelled. Proved: soundness (the lexicographic order is the original order), the exact thresholds for the BMO and GCD criteria, and for the generalised criterion soundness, and completeness when the number of sums stays within the limit. Refuted: the offset is put on the most important objective although the warning says the lowest ranking one; the multipliers do not give back the original value if there is an offset; OPB output loses the clauses relaxing soft clauses; standard output is mixed with messages; a weighted objective without soft constraints panics."
  },
  {
   "property": "C74",
   "status": "partial",
   "theorems": [
    "C74_pb",
    "C74_cnf_partial",
    "C74_cnf_written_partial",
    "C74_zero_weight_refuted",
    "C74_no_items_refuted"
   ],
   "note": "The pseudo-Boolean and the clausal encoding are modelled from the problem to the text written (reading problem files is C78). Proved for all problems with at least one item and objective; the clausal one needs weights of at least 1 and variable indices that fit, and uses the dynamic polynomial watchdog for the capacity. Refuted: the clausal encoding panics if an item weighs 0; the pseudo-Boolean one panics without items or objectives."
  },
  {
   "property": "C75",
   "status": "partial",
   "theorems": [
    "C75_pb",
    "C75_no_tasks_refuted",
    "C75_no_objectives_refuted"
   ],
   "note": "Proved for all problems with at least one task and objective whose numbers fit. Refuted: without tasks the constraints are unsatisfiable although the empty assignment is a solution; without objectives the generator panics."
  },
  {
   "property": "C76",
   "status": "partial",
   "theorems": [
    "C76_pb",
    "C76_no_customers_refuted"
   ],
   "note": "Proved for all problems with at least one customer, facility and objective whose numbers fit. Refuted: without customers the variables for opening facilities are also used as those of a first customer, so that exactly one facility must be opened."
  },
  {
   "property": "C77",
   "status": "partial",
   "theorems": [
    "C77_clusterings",
    "C77_written",
    "C77_values",
    "C77_few_objects_refuted",
    "C77_misread_refuted"
   ],
   "note": "Proved for all files with at least two objects; reading floating-point numbers is left open (any function from the rest of the line to scaled values). Refuted: fewer than two objects make the tool panic; a line that cannot be read is skipped without an error."
  },
  {
   "property": "C78",
   "status": "partial",
   "theorems": [
    "C78_no_panic",
    "C78_ub_sound",
    "C78_lb_sound_partial",
    "C78_lb_window_refuted",
    "C78_complete",
    "C78_encodes",
    "C78_persists",
    "C78_other_encoder_refuted",
    "C78_lb_takes_ub_refuted",
    "C78_lb_zero_refuted",
    "C78_local",
    "C78_next_higher",
    "C78_next_lower_partial",
    "C78_next_lower_refuted"
   ],
   "note": "One database, one variable manager, any number of `referenced` encoders of both kinds. Findings: `encode_lb` of the shared totalizer resets the \"if\" half of the encoding instead of the \"only if\" half, so that it takes away the encoder's own upper bounds (C78_lb_takes_ub_refuted) and a repeated `encode_lb` returns no clauses (C78_lb_window_refuted; C78_lb_sound_partial is therefore under all clauses returned so far); `encode_ub` of one encoder takes away the upper bounds of every other encoder of the database (C78_other_encoder_refuted); `enforce_lb(0)` panics (C78_lb_zero_refuted); `next_lower` answers one less where 0 is the next lower sum, and panics for 0 (C78_next_lower_refuted)."
  },
  {
   "property": "C79",
   "status": "partial",
   "theorems": [
    "C79_certified_calls_partial",
    "C79_identifiers_partial",
    "C79_clauses_follow_partial",
    "C79_histories_partial",
    "C79_conservative_partial",
    "C79_rules_sound",
    "C79_constraint_partial",
    "C79_upper_bound_full_refuted",
    "C79_lower_bound_zero_refuted",
    "C79_single_literal_refuted",
    "C79_equality_full_refuted"
   ],
   "note": "All certified calls of the totalizer over all histories, all states of the proof and all interleaved steps of others; the checker's rules are specified in CertSpec and proved sound. Partial: inputs with complementary literals are excluded (the encoder then saturates constraints of degree zero, which the specification of the checker refuses); the text of the proof is not part of these theorems. Refuted: the single-constraint methods of the totalizer panic when no output is needed (bound equal to the number of literals, lower bound zero, one literal)."
  },
  {
   "property": "C80",
   "status": "partial",
   "theorems": [
    "C80_certified_calls_partial",
    "C80_identifiers_partial",
    "C80_clauses_follow_partial",
    "C80_histories_partial",
    "C80_conservative_partial",
    "C80_simple_constraint_partial",
    "C80_weighted_constraint_partial",
    "C80_equal_weights_refuted",
    "C80_negative_equality_refuted",
    "C80_heavy_literal_refuted",
    "C80_weighted_root_refuted",
    "C80_full_bound_refuted",
    "C80_lower_bound_range_refuted",
    "C80_lower_bound_empty_refuted"
   ],
   "note": "Histories of certified calls on the generalized totalizer (extending, reserving, encoding ranges incrementally or anew, other steps in between) are proved for all inputs without complementary literals: same clauses and variables as without a proof, valid steps, right identifiers, no panics, nothing lost. Single constraints are proved for all constraints that simplify (tautologies, unsatisfiable ones, assignments, clauses), for unit weights, and for constraints of all three kinds with different weights in which no literal is heavier than the bound (for lower bounds: than the sum of the weights less the bound). Findings, each with a concrete witness: constraints with one common weight other than one are recorded with a derivation that gives a different constraint than the unit clause (the cardinality encoding is passed the identifier of the weighted constraint); an equality with a negative bound derives the empty clause from its trivially true half; a literal heavier than the bound that is not in the tree makes the certified call panic; a root with a weight other than one leads to a wrong derivation; the single upper bound equal to the weight sum writes a deletion without identifiers; the inverted generalized totalizer prepares lower bound ranges as upper bound ranges (src/encodings/pb/simulators.rs:263, 434), so that the largest bound is not encoded and an empty encoder panics."
  },
  {
   "property": "C81",
   "status": "partial",
   "theorems": [
    "C81_file_partial",
    "C81_empty_range",
    "C81_expressions",
    "C81_certified_steps_partial",
    "C81_proof_variables",
    "C81_objective_constant_refuted",
    "C81_objective_goals_refuted",
    "C81_weaken_refuted"
   ],
   "note": "Proved for every history of calls within the contract: no panic, the file is read back as exactly what was asked for, identifiers returned are the checker's, empty ranges are the only ranges refused, expressions of operations derive what they stand for, proof-only variables are new, and the steps of valid derivations (C79, C80) are read back from the file. Refuted: an objective's constant is not written; goals of a new objective are not counted, so later identifiers are wrong; weakening is written without its variable and cannot be read. Missing: definitions of orders, `substitute`, errors of the writer."
  },
  {
   "property": "C82",
   "status": "partial",
   "theorems": [
    "C82_totalizer_bounds",
    "C82_totalizer_calls_partial",
    "C82_trivial_bound_refuted",
    "C82_gte_bounds",
    "C82_gte_calls",
    "C82_am1",
    "C82_adder_upper_partial",
    "C82_adder_bounds",
    "C82_adder_lower_complete",
    "C82_adder_reserve_refuted",
    "C82_adder_mixed_refuted",
    "C82_dpw_exact_partial",
    "C82_dpw_encoded_partial",
    "C82_dpw_calls_partial",
    "C82_dpw_late_input",
    "C82_dpw_coarse_partial",
    "C82_dpw_limit_range_partial",
    "C82_dpw_zero_weight_refuted",
    "C82_dpw_full_precision_refuted"
   ],
   "note": "Proved for every C program using one totalizer or one generalized totalizer and for all at-most-one encodings; for the binary adder for programs with upper bounds only, and the lower-bound half for all programs. Refuted: asking for a trivial upper bound (at least the number of inputs) or for the lower bound zero of a totalizer aborts the program, even right after a range with that bound was encoded, because the interface takes the first of no assumptions; C82_totalizer_calls_partial is about the other bounds. Also refuted: reserving variables for a binary adder with inputs aborts, and after encoding a lower bound the assumptions of its upper bounds do not enforce them. For the dynamic polynomial watchdog proved for programs that add different literals with positive weights and then encode ranges at the initial precision; rounding bounds and limiting the range are covered as in C32 and C62; changing the precision and reserving through C are not. Refuted for it: an input added with weight 0 counts with weight 1, and since a new encoding starts at precision 0, setting the full precision 1 that dpw_next_precision gives is refused as a decrease once something is encoded."
  },
  {
   "property": "C83",
   "status": "partial",
   "theorems": [
    "C83_program",
    "C83_assign_zero",
    "C83_remove",
    "C83_mcnf",
    "C83_opb",
    "C83_nonzeros_refuted",
    "C83_empty_soft_refuted"
   ],
   "note": "Proved for all instances whose weights fit into isize, for the three ways of treating unused variables, and for files (OPB without `<`, no zero coefficients in objectives). Refuted: the numbers of non-zero entries in the header are wrong for negated soft literals and for repeated literals, and an empty soft clause makes the tool panic. Not modelled: overflow of the sums of coefficients of one column, running out of variables while writing."
  },
  {
   "property": "C84",
   "status": "proved",
   "theorems": [
    "C84_batsat",
    "C84_statistics"
   ],
   "note": "Proved for every back end that keeps the contract in BatsatSpec.v (BatSat's source is not in the repository)."
  },
  {
   "property": "C85",
   "status": "partial",
   "theorems": [
    "C85_getitem_partial",
    "C85_negative_index_refuted",
    "C85_out_of_range_refuted",
    "C85_negative_step_refuted",
    "C85_iteration_partial",
    "C85_cnf_iteration_partial",
    "C85_extend_refuted",
    "C85_nested_iteration_refuted",
    "C85_var_manager"
   ],
   "note": "Proved for indices in range (negative ones if the interpreter adds the length to them) and slices with non-negative steps, for iteration with the newest iterator, and for variable managers. Refuted: negative indices that arrive unchanged and all indices out of range panic; negative steps give wrong elements or panic; extending a clause during iteration is not noticed; a second iterator hides a modification from the first."
  },
  {
   "property": "C86",
   "status": "partial",
   "theorems": [
    "C86_adder_upper_partial",
    "C86_adder_lower_sound",
    "C86_adder_lower_complete",
    "C86_adder_complete",
    "C86_adder_errors",
    "C86_adder_variables",
    "C86_am1_joint",
    "C86_am1_encode",
    "C86_dpw_exact_partial",
    "C86_dpw_encoded_partial",
    "C86_dpw_errors_partial",
    "C86_dpw_variables_partial",
    "C86_dpw_zero_weight_refuted",
    "C86_dpw_constructor_refuted",
    "C86_literal_partial",
    "C86_least_literal_refuted",
    "C86_literal_order",
    "C86_totalizer_sound",
    "C86_totalizer_complete",
    "C86_totalizer_errors",
    "C86_totalizer_encode",
    "C86_totalizer_variables",
    "C86_gte_constructor_partial",
    "C86_gte_constructor_refuted",
    "C86_gte_sound_partial",
    "C86_gte_complete_partial",
    "C86_gte_errors_partial",
    "C86_gte_encode_partial",
    "C86_gte_variables_partial",
    "C86_adder_encode_both_refuted",
    "C86_adder_mixed_refuted"
   ],
   "note": "Proved for the totalizer over all Python histories, for the generalized totalizer and the dynamic polynomial watchdog over all histories that start with distinct literals and have positive weights, for the upper bounds of the binary adder in programs without lower bounds and for its lower bounds, clauses and variables in all programs, for any number of at-most-one objects that share a variable manager, and for all literals but the least. Refuted: Lit(-2147483648) is accepted but its to_ipasir panics; the constructors of the weighted encodings drop weights of repeated literals, which extend adds up; the constructor of the dynamic polynomial watchdog panics for a weight 0; the binary adder cannot enforce an equality in a range after encode_both, and enforces wrong upper bounds after encode_lb."
  }
 ]
}