{"claims": [
{"property": "C01", "status": "proved", "theorems": ["C01_unique_identity", "C01_size_enforced", "C01_distinct_ids_refuted"], "note": "Exact statement; collisions for ids equal modulo 2^32 shown as a refutation."},
{"property": "C02", "status": "proved", "theorems": ["C02_int_indexing", "C02_ravel_bijective"], "note": "Full integer tuples on shapes of rank >= 1."},
{"property": "C03", "status": "proved", "theorems": ["C03_slicing", "C03_slicing_succeeds", "C03_int_first_refuted", "C03_errors", "C03_int_first"], "note": "All slices including steps; order is row-major when steps are positive. The claim that any tuple with a slice gives a list is refuted."},
{"property": "C04", "status": "proved", "theorems": ["C04_flatten_accepts", "C04_roundtrip_per_variable", "C04_roundtrip_per_state", "C04_flatten_rows", "C04_unflatten_flatten", "C04_ambiguous_only_if_one_state", "C04_one_state_roundtrip_refuted", "C04_unflatten"], "note": "Including the exact ambiguous case."},
{"property": "C05", "status": "proved", "theorems": ["C05_lookup", "C05_flatten", "C05_roundtrip", "C05_mixed_roundtrip_refuted", "C05_unflatten", "C05_no_names", "C05_wrong_kind"], "note": "Round trip for data that is all per-state or all per-variable (positive state counts); mixed data refuted."},
{"property": "C06", "status": "proved", "theorems": ["C06_layout_partition", "C06_compiled_layout"], "note": "Layout of every graph reachable by constructor and add_factors calls, over constructed groups of at most 10^9 variables with ids distinct mod 2^32."},
{"property": "C07", "status": "proved", "theorems": ["C07_write_read", "C07_reads"], "note": "Any sequence of correctly sized writes to variables or groups, through update_evidence or Evidence.__setitem__. C07_reads: exactly the variables of the graph can be read and written."},
{"property": "C08", "status": "proved", "theorems": ["C08_variable_sizes", "C08_errors", "C08_per_variable_overwrites", "C08_per_variable_refuted"], "note": "Exact acceptance condition for one variable; NDVarArray with per-variable data overwrites the first flat entries; the error raised by every other write."},
{"property": "C09", "status": "proved", "theorems": ["C09_evidence_order", "C09_overlap_refuted", "C09_log_potentials_order"], "note": "evidence and log potentials updates commute for disjoint keys; overlapping evidence keys refuted by example"},
{"property": "C10", "status": "proved", "theorems": ["C10_enum_factor"], "note": "EnumFactor succeeds iff well formed, only ValueError otherwise."},
{"property": "C11", "status": "proved", "theorems": ["C11_logical_factor", "C11_logical_wiring", "C11_group_unchecked"], "note": "Acceptance of ORFactor/ANDFactor and LogicalWiring characterised; groups over non-binary variables are accepted and compile with disagreeing sizes."},
{"property": "C12", "status": "proved", "theorems": ["C12_enum_group", "C12_enum_errors", "C12_configs_validated_refuted"], "note": "Broadcasting and acceptance for all inputs and the kinds of errors; validation of configurations refuted by a witness that compiles into another variable's state."},
{"property": "C13", "status": "proved", "theorems": ["C13_pairwise_group", "C13_grid"], "note": "Grid enumeration and potentials for all sizes; acceptance iff."},
{"property": "C14", "status": "proved", "theorems": ["C14_enum_round_trip", "C14_pairwise_round_trip", "C14_ambiguous_sizes", "C14_unflatten"], "note": "Accepted shapes, round trips, tiling, the ambiguous sizes and what unflatten accepts."},
{"property": "C15", "status": "proved", "theorems": ["C15_lookup", "C15_factors", "C15_duplicates"], "note": "Lookup by variable set; ValueError if absent; C15_duplicates covers groups in which several factors share a set."},
{"property": "C16", "status": "proved", "theorems": ["C16_no_duplicates", "C16_addition", "C16_factors_refused", "C16_groups_kept"], "note": "Invariant over all sequences of additions."},
{"property": "C17", "status": "proved", "theorems": ["C17_reserved_sets", "C17_list"], "note": "Reserved sets after a rejected group, for all later histories; lists keep earlier elements."},
{"property": "C18", "status": "proved", "theorems": ["C18_ranges", "C18_blocks", "C18_ids", "C18_sizes"], "note": "Ranges are explicit prefix sums; blocks disjoint and inside their type's range; sizes match wirings and potentials for well-formed groups. Distinct group identities follow for graphs built by add_factors."},
{"property": "C19", "status": "proved", "theorems": ["C19_fresh", "C19_direct_offsets_refuted"], "note": "any history without direct compute_offsets() calls; that exclusion shown necessary by a refutation; object ids assumed to identify groups"},
{"property": "C20", "status": "proved", "theorems": ["C20_enum_wiring", "C20_var_states", "C20_num_configs", "C20_no_junk", "C20_only_total_checked", "C20_dimensions"], "note": "Rows, var states and config count of the concatenated wiring for all group lists and all junk; only the total number of variables and the number of dimensions of the configurations are checked otherwise."},
{"property": "C21", "status": "proved", "theorems": ["C21_logical_wiring", "C21_graph_compiles"], "note": "Exact characterisation of success, resulting wiring and ValueError otherwise."},
{"property": "C22", "status": "proved", "theorems": ["C22_factors_determine_wiring", "C22_enum_one_by_one", "C22_logical_one_by_one"], "note": "Wiring and potentials are a function of the factor list; one-by-one equals grouped."},
{"property": "C23", "status": "proved", "theorems": ["C23_var_to_fac"], "note": "For every compiled graph, the flat variable-to-factor update equals evidence plus the messages of the variable's other edges."},
{"property": "C24", "status": "proved", "theorems": ["C24_enum_max", "C24_enum_textbook", "C24_no_configuration"], "note": "Exact floored formula, the textbook maximum when a covered choice reaches NEG_INF, and the NEG_INF value for states in no configuration."},
{"property": "C25", "status": "proved", "theorems": ["C25_enum_soft", "C25_sum_product"], "note": "For every T<>0 with every edge state covered by a configuration (in floats an uncovered state gives -inf); T=1 is sum-product."},
{"property": "C26", "status": "proved", "theorems": ["C26_logical_max", "C26_factors"], "note": "At graph level (mixed factors) and for any list of OR or AND factors of any size; message differences stay above NEG_INF."},
{"property": "C27", "status": "proved", "theorems": ["C27_logical_soft", "C27_factors"], "note": "At graph level and for any list of OR or AND factors, T > 0 (exp(NEG_INF) is taken to be 0)."},
{"property": "C28", "status": "proved", "theorems": ["C28_equivalent"], "note": "Messages agree up to a constant per edge and agree exactly after normalisation."},
{"property": "C29", "status": "proved", "theorems": ["C29_normalised", "C29_bounded"], "note": "For every graph, arrays, damping and iteration count, given supported array size and above_floor; C29_bounded derives above_floor from bounds on the inputs."},
{"property": "C30", "status": "proved", "theorems": ["C30_correct", "C30_oversize", "C30_first_message", "C30_unbounded_refuted"], "note": "Correct up to the size bound, the exact wrong window beyond it, its effect on normalisation, and a witness refuting the claim without the bound."},
{"property": "C31", "status": "proved", "theorems": ["C31_resume", "C31_bounded", "C31_zero_and_frame"], "note": "Resumption needs the intermediate messages to be normalised (above_floor); C31_bounded derives this from bounds on the inputs."},
{"property": "C32", "status": "proved", "theorems": ["C32_convex", "C32_undamped", "C32_freeze", "C32_fixed_point"], "note": ""},
{"property": "C33", "status": "proved", "theorems": ["C33_beliefs"], "note": "Shape, row order and padding of get_beliefs; every variable's beliefs equal evidence plus incoming messages. Requires num_states > 0. The order of the returned dictionary after jax.jit is not modelled."},
{"property": "C34", "status": "proved", "theorems": ["C34_map_states", "C34_one_state", "C34_no_axis"], "note": "First maximising state below the variable's number of states for every variable, for graphs without one-state arrays; C34_one_state and C34_no_axis state what happens to such arrays (the result loses an axis, or decoding raises)."},
{"property": "C35", "status": "proved", "theorems": ["C35_marginals", "C35_row", "C35_one_state"], "note": "Row theorem for arbitrary beliefs and graph theorem (marginals are exp(belief) normalised, 0 on padding) for graphs without one-state arrays; C35_one_state states what happens to such arrays (normalised across variables)."},
{"property": "C36", "status": "proved", "theorems": ["C36_write_read", "C36_initial", "C36_accept"], "note": "any sequence of well-shaped writes; exact acceptance condition; initial values"},
{"property": "C37", "status": "proved", "theorems": ["C37_spread", "C37_sum", "C37_errors"], "note": "any sequence of writes, any numeric type; sums over R"},
{"property": "C38", "status": "proved", "theorems": ["C38_update", "C38_init", "C38_to_bp_state"], "note": "update is three independent optional updates; init; to_bp_state accepts iff lengths fit"},
{"property": "C39", "status": "proved", "theorems": ["C39_textbook", "C39_bounded"], "note": "Edge by edge and state by state for all iteration counts; C39_bounded has hypotheses about the inputs only."},
{"property": "C40", "status": "proved", "theorems": ["C40_messages", "C40_bounded", "C40_beliefs", "C40_decode", "C40_unbounded_refuted"], "note": "Messages, beliefs (moved by the constants), MAP states and marginals, for simultaneous constants on all variables; hypotheses keep both runs above NEG_INF (C40_bounded: in terms of the inputs). C40_unbounded_refuted shows the hypothesis is needed."},
{"property": "C41", "status": "proved", "theorems": ["C41_low_temperature"], "note": "Bounds for every enumeration factor of every compiled graph."},
{"property": "C42", "status": "proved", "theorems": ["C42_beliefs", "C42_small", "C42_map", "C42_converges", "C42_converges_small", "C42_textbook", "C42_unclipped", "C42_unique"], "note": "Undamped max-product (T = 0) on an acyclic graph: after at least as many iterations as factors the beliefs are max-marginals up to a constant per variable and each decoded state belongs to an optimal assignment; the messages are then a fixed point, at any temperature. Acyclic means no simple cycle of variables and factors. That clipping never applies is a hypothesis (C42_beliefs), or derived from bounds on the inputs (C42_small). C42_unique: if one assignment is strictly best, the decoded states are its states."},
{"property": "C43", "status": "proved", "theorems": ["C43_order", "C43_graphs", "C43_run", "C43_bounded", "C43_factors", "C43_accepted", "C43_accepted_order"], "note": "Any order and grouping of the same factors, including logical factors replaced by their enumerations, gives equal get_beliefs results after any run, as long as no value reaches NEG_INF (C43_order, C43_graphs, C43_bounded: hypotheses on inputs only). C43_run: arbitrary arrays with corresponding potentials and messages. C43_accepted: acceptance of a list of groups does not depend on the order."},
{"property": "C44", "status": "proved", "theorems": ["C44_same_object", "C44_identity", "C44_stable", "C44_addition"], "note": "object identity of reads characterised exactly; no hypothesis on ids"},
{"property": "C45", "status": "proved", "theorems": ["C45_marginals", "C45_small", "C45_beliefs", "C45_textbook"], "note": "Exact reals. The hypotheses ask that normalisation never clips and that intermediate values stay in the range the code supports; C45_small replaces them by bounds on the inputs. Every state of every edge needs a configuration (part of in_range)."},
{"property": "C46", "status": "proved", "theorems": ["C46_factors", "C46_exact", "C46_fresh", "C46_pure"], "note": "FactorGraph.factors: content, exact success condition, freshness through the shared cache for all histories"},
{"property": "C47", "status": "proved", "theorems": ["C47_interval", "C47_normalised", "C47_resume", "C47_freeze", "C47_undamped_refuted"], "note": "C47_undamped_refuted shows that damping 0 is not exact replacement under rounding. Rounding functions without overflow; comparisons exact."},
{"property": "C48", "status": "proved", "theorems": ["C48_messages", "C48_bounded", "C48_decode", "C48_constants"], "note": "Lipschitz bound in exact real arithmetic, all factor types and temperatures; the refinement C39 supplies the step from code to textbook messages."},
{"property": "C49", "status": "proved", "theorems": ["C49_array", "C49_dict", "C49_equality", "C49_logical_group", "C49_add", "C49_tuple", "C49_default"], "note": "Array sizes are taken without int64 wrap-around."},
{"property": "C50", "status": "proved", "theorems": ["C50_run", "C50_logical", "C50_marginals", "C50_update", "C50_uncovered"], "note": "In exact arithmetic. The hypothesis that states occur in configurations is needed (C50_uncovered)."},
{"property": "C51", "status": "proved", "theorems": ["C51_messages", "C51_damping", "C51_normalised", "C51_beliefs", "C51_decode"], "note": "PropsRoundErr.v. Temperature 0 only. Rounding model: no overflow, inf or NaN. The bound counts the rounding of each operation; potentials, evidence and initial messages are taken as given, not rounded."},
{"property": "C52", "status": "proved", "theorems": ["C52_sorting", "C52_evidence", "C52_log_potentials", "C52_messages", "C52_order", "C52_overlap", "C52_last_wins_refuted", "C52_results", "C52_arrays", "C52_wirings"], "note": "Jit.v models the reordering of dictionaries and the flattening of registered classes; the sorting function and the hash of tuples are arbitrary in the theorems. C52_last_wins_refuted uses CPython's tuple hash."},
{"property": "C53", "status": "proved", "theorems": ["C53_update", "C53_messages", "C53_decode", "C53_limit", "C53_decode_limit"], "note": "T and T' may be 0; inputs moderate as in C39/C48 so that no value reaches NEG_INF. (a) is about enumeration factors; logical factors are covered by (b) with n = 1."},
{"property": "C54", "status": "proved", "theorems": ["C54_messages", "C54_beliefs", "C54_far", "C54_added"], "note": "C54_messages and C54_beliefs: two graphs with an embedding, inputs that agree wherever they can reach the result. C54_far: one graph, two sets of arrays. C54_added: factors added far away. Examples on the example graph: other evidence and potentials two factors away, an added factor, and a copy with states of a variable renumbered; C54_far_computed shows that the distance is exact."},
{"property": "C55", "status": "proved", "theorems": ["C55_order", "C55_graphs", "C55_parents", "C55_columns"], "note": "C55_order: graphs built from groups; C55_graphs: any two reachable graphs; C55_parents and C55_columns: the changes covered by reordered. Example: the example graph with columns, configurations and parents rearranged; C55_child_matters shows that the child may not be exchanged."},
{"property": "C56", "status": "proved", "theorems": ["C56_approach", "C56_converges", "C56_rate", "C56_cycle", "C56_hot", "C56_pairwise", "C56_decode", "C56_inputs", "C56_zero_temperature_refuted"], "note": "Exact real arithmetic. The gain bound is sufficient, not necessary. The claim at temperature 0 without damping is refuted on a triangle."},
{"property": "C57", "status": "proved", "theorems": ["C57_reparametrise", "C57_marginals", "C57_marginals_one", "C57_max", "C57_floor", "C57_optimal", "C57_trees", "C57_loops", "C57_loop_map", "C57_global_refuted"], "note": "Fixed points: reparametrisation, consistency of beliefs, optimality of decoded states over trees and loops; global optimality refuted in general"},
{"property": "C58", "status": "proved", "theorems": ["C58_converges", "C58_rate", "C58_beliefs", "C58_map", "C58_decodes", "C58_marginals"], "note": "On acyclic graphs; the bound's constant grows exponentially with the number of factors. The statements about beliefs, decoding and marginals need inputs that are not clipped."},
{"property": "C59", "status": "proved", "theorems": ["C59_undamped", "C59_message", "C59_same", "C59_evidence", "C59_uninformative"], "note": "Separable factors send their own terms (C59_undamped, C59_message) and can be replaced by evidence (C59_same, C59_evidence); uninformative factors change nothing in fresh runs (C59_uninformative)."},
{"property": "C60", "status": "proved", "theorems": ["C60_messages", "C60_beliefs"], "note": "messages; beliefs and decoded states; both for every temperature and damping"},
{"property": "C61", "status": "proved", "theorems": ["C61_messages", "C61_beliefs"], "note": "messages; beliefs and decoded states (ties excepted: argmax takes the first state)"},
{"property": "C62", "status": "proved", "theorems": ["C62_held", "C62_smaller_refuted", "C62_messages", "C62_beliefs"], "note": "decoded state and marginals; 1000 per factor is needed; messages, beliefs and decoded states of a set cut off by held variables (temperature 0)"},
{"property": "C63", "status": "proved", "theorems": ["C63_messages", "C63_beliefs", "C63_range", "C63_clipped_refuted"], "note": "messages; beliefs, decoded states and marginals; range of messages of factors with all configurations; false with clipping"},
{"property": "C64", "status": "proved", "theorems": ["C64_acyclic", "C64_final", "C64_max", "C64_marginals"], "note": "Real arithmetic; the bounds on sizes are those of C39, plus small ranges for the exactness claims."},
{"property": "C65", "status": "proved", "theorems": ["C65_messages", "C65_beliefs", "C65_tied", "C65_together_refuted"], "note": "The claim that the decoded states together are an assignment of largest score is refuted."},
{"property": "C66", "status": "proved", "theorems": ["C66_messages", "C66_beliefs", "C66_rising", "C66_falling", "C66_extremes", "C66_any_model_refuted", "C66_clipped_refuted"], "note": "Two states per variable, or temperature 0 without clipping; the claim is refuted for clipped messages of three states and for other potentials."},
{"property": "C67", "status": "proved", "theorems": ["C67_child_exact", "C67_child_rounded", "C67_parent_exact", "C67_parent_rounded", "C67_close_refuted"], "note": "Messages of OR and AND factors at positive temperatures under underflow; closeness of rounded runs refuted."},
{"property": "C68", "status": "proved", "theorems": ["C68_messages", "C68_damping", "C68_normalised", "C68_beliefs", "C68_decode", "C68_lasting", "C68_settles"], "note": "Rounded sum-product runs on graphs of enumeration factors: messages, beliefs and decoded states; a bound for all numbers of iterations at high temperature."},
{"property": "C69", "status": "proved", "theorems": ["C69_compiles", "C69_available", "C69_exists", "C69_fits", "C69_ready", "C69_results"], "note": "Exact compilation and availability conditions with the errors raised otherwise; invariant of all client call sequences over any number type; results over the reals."},
{"property": "C70", "status": "proved", "theorems": ["C70_additions", "C70_compiled", "C70_updates", "C70_runs", "C70_program", "C70_collision_refuted"], "note": "For any number type; the groups of each run must have ids that differ modulo 2^32 (C70_collision_refuted: without it the statement is false), and log potential updates need distinct factor group ids."},
{"property": "C71", "status": "proved", "theorems": ["C71_bound", "C71_gap", "C71_optimal"], "note": "For any messages; the residuals are computed by the client from the arrays of the run."},
{"property": "C72", "status": "proved", "theorems": ["C72_partition", "C72_small", "C72_textbook", "C72_cyclic_refuted"], "note": "Undamped, at positive temperature. Clipping is excluded as in C45."},
{"property": "C73", "status": "proved", "theorems": ["C73_joint", "C73_small", "C73_textbook"], "note": "Undamped, at positive temperature. Clipping is excluded as in C45."},
{"property": "C74", "status": "proved", "theorems": ["C74_max", "C74_small", "C74_textbook"], "note": "Undamped, at temperature 0. Clipping is excluded as in C42."}
]}
