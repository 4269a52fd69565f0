{
 "claims": [
  {
   "property": "C01",
   "status": "proved",
   "theorems": [
    "C01_partition_value"
   ],
   "note": "any weights, any arc directions, parallel arcs and self loops allowed"
  },
  {
   "property": "C02",
   "status": "proved",
   "theorems": [
    "C02_cut_submodular"
   ],
   "note": ""
  },
  {
   "property": "C03",
   "status": "proved",
   "theorems": [
    "C03_make_dgraph",
    "C03_vector_constructor",
    "C03_constructed_object"
   ],
   "note": ""
  },
  {
   "property": "C04",
   "status": "proved",
   "theorems": [
    "C04_dilworth_value"
   ],
   "note": "for every solver meeting MinCutSpec"
  },
  {
   "property": "C05",
   "status": "proved",
   "theorems": [
    "C05_dilworth_partition",
    "C05_dilworth_subgraph",
    "C05_evaluate"
   ],
   "note": "both DilworthTruncation classes; evaluate of dt.cpp"
  },
  {
   "property": "C06",
   "status": "proved",
   "theorems": [
    "C06_finest"
   ],
   "note": "solver reporting inclusion-minimal sink sides; C06_needs_minimal_sink_side shows the premise is needed"
  },
  {
   "property": "C07",
   "status": "proved",
   "theorems": [
    "C07_dt_well_formed"
   ],
   "note": ""
  },
  {
   "property": "C08",
   "status": "proved",
   "theorems": [
    "C08_dt_slopes"
   ],
   "note": ""
  },
  {
   "property": "C09",
   "status": "proved",
   "theorems": [
    "C09_dt_near_optimal"
   ],
   "note": ""
  },
  {
   "property": "C10",
   "status": "proved",
   "theorems": [
    "C10_dt_nested"
   ],
   "note": ""
  },
  {
   "property": "C11",
   "status": "proved",
   "theorems": [
    "C11_dt_exact",
    "C11_dt_exact_any_solver",
    "C11_dt_exact_small_tolerance"
   ],
   "note": ""
  },
  {
   "property": "C12",
   "status": "proved",
   "theorems": [
    "C12_psp_unique"
   ],
   "note": ""
  },
  {
   "property": "C13",
   "status": "proved",
   "theorems": [
    "C13_dt_run_num",
    "C13_dt_run_num_one_node"
   ],
   "note": ""
  },
  {
   "property": "C14",
   "status": "proved",
   "theorems": [
    "C14_psp_i_well_formed"
   ],
   "note": ""
  },
  {
   "property": "C15",
   "status": "proved",
   "theorems": [
    "C15_psp_i_exact",
    "C15_psp_i_near_optimal"
   ],
   "note": ""
  },
  {
   "property": "C16",
   "status": "proved",
   "theorems": [
    "C16_psp_i_monotone",
    "C16_psp_i_distinct_refuted"
   ],
   "note": "distinctness claimed by the documentation is refuted by a concrete graph"
  },
  {
   "property": "C17",
   "status": "proved",
   "theorems": [
    "C17_dt_psp_i_agree"
   ],
   "note": ""
  },
  {
   "property": "C18",
   "status": "proved",
   "theorems": [
    "C18_dt_repeatable",
    "C18_psp_i_repeatable_refuted",
    "C18_hpsp_repeatable_refuted"
   ],
   "note": "proved for dt; repeatability is refuted for psp_i and hpsp"
  },
  {
   "property": "C19",
   "status": "proved",
   "theorems": [
    "C19_hpsp_exact",
    "C19_hpsp_near_optimal",
    "C19_hpsp_agrees_with_dt",
    "C19_any_min_cut_refuted"
   ],
   "note": "inclusion-minimal sink sides are a premise; C19_any_min_cut_refuted shows it cannot be dropped"
  },
  {
   "property": "C48",
   "status": "proved",
   "theorems": [
    "C48_hpsp_tree"
   ],
   "note": ""
  },
  {
   "property": "C20",
   "status": "proved",
   "theorems": [
    "C20_dt_canonical",
    "C20_psp_i_canonical",
    "C20_hpsp_canonical",
    "C20_direction_refuted"
   ],
   "note": "independence of arc direction is refuted for raw input (witness C20_witness covers dt, psp_i, hpsp)"
  },
  {
   "property": "C21",
   "status": "proved",
   "theorems": [
    "C20_dt_canonical",
    "C20_psp_i_canonical",
    "C20_hpsp_canonical",
    "C21_parallel_refuted"
   ],
   "note": "additivity of parallel arcs is refuted for raw input"
  },
  {
   "property": "C22",
   "status": "proved",
   "theorems": [
    "C22_dt_self_loop_ub",
    "C22_self_loops_refuted",
    "C20_dt_canonical",
    "C20_psp_i_canonical",
    "C20_hpsp_canonical"
   ],
   "note": "harmlessness of self loops is refuted for raw input"
  },
  {
   "property": "C23",
   "status": "proved",
   "theorems": [
    "C23_one_node",
    "C23_dt_one_node_refuted",
    "C23_psp_i_empty_refuted"
   ],
   "note": "psp_i and hpsp proved; refuted for dt"
  },
  {
   "property": "C34",
   "status": "proved",
   "theorems": [
    "C34_find"
   ],
   "note": ""
  },
  {
   "property": "C35",
   "status": "proved",
   "theorems": [
    "C35_get_partition",
    "C35_empty_refuted"
   ],
   "note": ""
  },
  {
   "property": "C36",
   "status": "proved",
   "theorems": [
    "C36_get_cluster"
   ],
   "note": ""
  },
  {
   "property": "C37",
   "status": "proved",
   "theorems": [
    "C37_similarity",
    "C37_self",
    "C37_apart",
    "C37_apart_refuted"
   ],
   "note": ""
  },
  {
   "property": "C38",
   "status": "proved",
   "theorems": [
    "C38_critical_values",
    "C38_merge_accepts"
   ],
   "note": ""
  },
  {
   "property": "C39",
   "status": "proved",
   "theorems": [
    "C39_chow_liu",
    "C39_chow_liu_entropy"
   ],
   "note": ""
  },
  {
   "property": "C46",
   "status": "proved",
   "theorems": [
    "C46_critical_values_of_node",
    "C46_complete_refuted"
   ],
   "note": "completeness of the list is refuted"
  },
  {
   "property": "C25",
   "status": "proved",
   "theorems": [
    "C25_compute_lambda",
    "C25_compute_lambda_unreachable"
   ],
   "note": "the PMF_R copy of compute_lambda is textually the same"
  },
  {
   "property": "C26",
   "status": "proved",
   "theorems": [
    "C26_parametric_cuts",
    "C26_degenerate_stage"
   ],
   "note": "under the condition that {j} alone is not a minimiser at the initial lambda; otherwise C26_degenerate_stage: a NaN threshold"
  },
  {
   "property": "C27",
   "status": "proved",
   "theorems": [
    "C27_pdt_exact",
    "C27_pdt_exact_small_tolerance",
    "C27_pdt_agrees_with_dt"
   ],
   "note": "weights at least the tolerance; C47 shows the condition is needed"
  },
  {
   "property": "C28",
   "status": "proved",
   "theorems": [
    "C28_second_run_hangs",
    "C28_merge_loop_never_ends",
    "C28_rerun_refuted",
    "C28_pdtr_second_run_hangs"
   ],
   "note": "refuted: on every graph with two or more nodes the second run does not return"
  },
  {
   "property": "C47",
   "status": "proved",
   "theorems": [
    "C47_zero_weight_refuted"
   ],
   "note": "refuted by a four-node graph"
  },
  {
   "property": "C29",
   "status": "proved",
   "theorems": [
    "C29_contract_preserves_cuts"
   ],
   "note": "capacities zero or above the tolerance; C29_boundary shows what happens at the tolerance"
  },
  {
   "property": "C49",
   "status": "proved",
   "theorems": [
    "C49_pdtr_exact",
    "C49_pdtr_exact_small_tolerance",
    "C49_schedule_independent",
    "C49_pdtr_agrees_with_dt"
   ],
   "note": "workers are min-cut oracles with inclusion-minimal sides; warm starts and elevators not modelled"
  },
  {
   "property": "C32",
   "status": "proved",
   "theorems": [
    "C32_worker_race"
   ],
   "note": "transition system of the three threads; interruption semantics of the missing submodule as stated in MThreads.v"
  },
  {
   "property": "C33",
   "status": "proved",
   "theorems": [
    "C33_failure_is_rethrown",
    "C33_one_failure_never_blocks",
    "C33_two_failures_never_return",
    "C33_failures_rethrown_refuted"
   ],
   "note": "refuted: when both workers throw nobody notifies the condition variable and slice waits forever; one failure is rethrown"
  },
  {
   "property": "C43",
   "status": "proved",
   "theorems": [
    "C43_modify_flow_valid",
    "C43_every_warm_start_accepted",
    "C43_pdt_with_warm_starts_exact"
   ],
   "note": "pdt; the warm starts of pdt_r are not covered"
  },
  {
   "property": "C30",
   "status": "proved",
   "theorems": [
    "C30_contract_cut_formula",
    "C30_contract_preserves_cuts_iff",
    "C30_contract_refuted"
   ],
   "note": "refuted as stated: a node joined to the contracted set in both directions loses one direction (also in forward graphs); exact condition proved"
  },
  {
   "property": "C31",
   "status": "proved",
   "theorems": [
    "C31_copy",
    "C31_copy_faithful_iff",
    "C31_copy_refuted"
   ],
   "note": "refuted as stated: the node loop steps on from an erased node, so only one unused id is erased; exact condition proved.  Relies on LEMON 1.3's node table as modelled in MUtil.v"
  },
  {
   "property": "C24",
   "status": "proved",
   "theorems": [
    "C24_unknown_method",
    "C24_who_throws",
    "C24_histories",
    "C24_histories_refuted"
   ],
   "note": "histories without psp_i and hpsp; with them refuted: the wrapped graph is contracted and the next call answers for another graph"
  },
  {
   "property": "C44",
   "status": "proved",
   "theorems": [
    "C44_print",
    "C44_print_long",
    "C44_empty_refuted"
   ],
   "note": "refuted for the empty vector (undefined behaviour)"
  },
  {
   "property": "C45",
   "status": "proved",
   "theorems": [
    "C45_output",
    "C45_unknown_method"
   ],
   "note": "the result list invariant holds for every method, graph and solver; agg_psp passes main's check and then throws"
  },
  {
   "property": "C40",
   "status": "proved",
   "theorems": [
    "C40_entropy_value",
    "C40_entropy_touch",
    "C40_entropy_submodular",
    "C40_entropy_crossing",
    "C40_descending_refuted"
   ],
   "note": "forward graphs; refuted for arcs from a larger to a smaller id"
  },
  {
   "property": "C41",
   "status": "proved",
   "theorems": [
    "C41_greedy_optimal_base",
    "C41_size_mismatch_throws"
   ],
   "note": "for every order that sorts the weights"
  },
  {
   "property": "C42",
   "status": "proved",
   "theorems": [
    "C42_agglomerate_step",
    "C42_solver_exists"
   ],
   "note": "exact minimum-norm solver as premise (shown satisfiable), values on a grid finer than the tolerance"
  },
  {
   "property": "C50",
   "status": "proved",
   "theorems": [
    "C50_agg_exact",
    "C50_agg_any_graph",
    "C50_any_submodular_function",
    "C50_agg_agrees",
    "C50_direction_refuted",
    "C50_tolerance_refuted"
   ],
   "note": "exact minimum-norm solver as premise; descending arcs are ignored by the code and levels closer than 1E-6 are merged (refuted)"
  },
  {
   "property": "C51",
   "status": "proved",
   "theorems": [
    "C51_returned_base",
    "C51_close_to_minimum",
    "C51_small",
    "C51_one_element_refuted"
   ],
   "note": "exact rational least squares (Eigen llt on affinely independent columns) and a correct sort as premises; the factor L is arbitrary"
  },
  {
   "property": "C52",
   "status": "proved",
   "theorems": [
    "C52_no_undefined_behaviour"
   ],
   "note": "same premises; the factor is assumed to be free of undefined behaviour on its own (lsafe)"
  },
  {
   "property": "C53",
   "status": "proved",
   "theorems": [
    "C53_terminates",
    "C53_exact_for_small_tolerance"
   ],
   "note": "eps = 0 only; for eps > 0 termination is not proved"
  },
  {
   "property": "C54",
   "status": "proved",
   "theorems": [
    "C54_run_throws_refuted",
    "C54_small_weights_refuted",
    "C54_square_root"
   ],
   "note": "refuted in exact arithmetic with square roots rounded to 2^-50: one graph on which run() throws because L is not the factor after a minor cycle removing two columns, one with small weights that stops too early; the C++ was not run"
  },
  {
   "property": "C55",
   "status": "proved",
   "theorems": [
    "C55_value",
    "C55_touch",
    "C55_submodular",
    "C55_agg_hypergraph",
    "C55_empty_refuted"
   ],
   "note": "AIC part: exact minimum-norm solver as premise, weights on a grid finer than the tolerance"
  },
  {
   "property": "C56",
   "status": "proved",
   "theorems": [
    "C56_mutual_info",
    "C56_graph",
    "C56_hypergraph"
   ],
   "note": ""
  },
  {
   "property": "C57",
   "status": "proved",
   "theorems": [
    "C57_first_column",
    "C57_new_column",
    "C57_remove_one",
    "C57_remove_two_refuted"
   ],
   "note": "proved for one removed column and exact square roots; refuted for two columns removed in the same cycle"
  },
  {
   "property": "C58",
   "status": "proved",
   "theorems": [
    "C58_any_submodular_function",
    "C58_graph"
   ],
   "note": "eps = 0 and exact arithmetic; runs in which min_norm_base gives up with its stuck message or LLT throws are excluded"
  },
  {
   "property": "C59",
   "status": "proved",
   "theorems": [
    "C59_pdtr_warm_exact",
    "C59_pdtr_warm_small_tolerance",
    "C59_only_terminals_rejected",
    "C59_warm_start_accepted_refuted",
    "C59_contract_flow_parallel_refuted"
   ],
   "note": "the outcome Throw (a worker reports its flow map as invalid) is left open for whole runs of pdt_r; for a single stage it is shown to happen"
  },
  {
   "property": "C60",
   "status": "proved",
   "theorems": [
    "C60_source",
    "C60_submodular",
    "C60_agg_fls",
    "C60_undefined",
    "C60_ring_refuted",
    "C60_fractions_refuted",
    "C60_entries"
   ],
   "note": "the rank routine of PARI is a premise (RankSpec); k*log2(p) is a positive rational parameter"
  },
  {
   "property": "C61",
   "status": "proved",
   "theorems": [
    "C61_chain",
    "C61_throws",
    "C61_range",
    "C61_constructor",
    "C61_submodular",
    "C61_symmetric_refuted"
   ],
   "note": "real numbers of the standard library (its axioms are listed in DESIGN.md); LLT modelled in exact arithmetic"
  },
  {
   "property": "C62",
   "status": "proved",
   "theorems": [
    "C62_constructor",
    "C62_rows",
    "C62_throws",
    "C62_submodular",
    "C62_no_columns_refuted"
   ],
   "note": "as C61"
  },
  {
   "property": "C63",
   "status": "proved",
   "theorems": [
    "C63_lifetime",
    "C63_no_leak",
    "C63_wrapped_graph_survives",
    "C63_copy_refuted",
    "C63_copy_aliasing_refuted",
    "C63_no_leak_refuted"
   ],
   "note": "Heap of blocks without reuse of addresses; statements construct, wrap, copy, assign, run, destroy; methods as in C24; an exception in run is caught by the client and changes nothing"
  },
  {
   "property": "C64",
   "status": "proved",
   "theorems": [
    "C64_result_file",
    "C64_same_contents",
    "C64_default_names",
    "C64_refused",
    "C64_throws",
    "C64_result_option_refuted",
    "C64_reports_failure_refuted",
    "C64_input_kept_refuted"
   ],
   "note": "Options as parsed; digraphReader and the file system are parameters; lines of the file are partitions and values, their text is not modelled"
  },
  {
   "property": "C65",
   "status": "proved",
   "theorems": [
    "C65_counting_faithful",
    "C65_dt_flows",
    "C65_dt_cost"
   ],
   "note": "Cost counts max flows and the nodes of their networks, not the time inside LEMON"
  },
  {
   "property": "C66",
   "status": "proved",
   "theorems": [
    "C66_psp_i_flows",
    "C66_hpsp_flows",
    "C66_bound_attained",
    "C66_linear_refuted"
   ],
   "note": "Cost counts max flows and the nodes of their networks, not the time inside LEMON"
  },
  {
   "property": "C67",
   "status": "proved",
   "theorems": [
    "C67_pdt_flows",
    "C67_pdtr_flows"
   ],
   "note": "Cost counts max flows and the nodes of their networks, not the time inside LEMON; a computation abandoned by the losing worker counts in full, and a warm start counts like a cold one"
  },
  {
   "property": "C68",
   "status": "proved",
   "theorems": [
    "C68_flow_accuracy",
    "C68_truncation_accuracy",
    "C68_subgraph_truncation_accuracy"
   ],
   "note": "The arithmetic of psp itself is still exact; only the solver's answers are inexact"
  },
  {
   "property": "C69",
   "status": "proved",
   "theorems": [
    "C69_dt_robust",
    "C69_dt_some_accuracy",
    "C69_coarse_solver_refuted"
   ],
   "note": "Exact for rational weights with common denominator D; psp's own arithmetic is exact in the model. Critical values may repeat, as with any exact solver that does not report minimal sink sides"
  },
  {
   "property": "C70",
   "status": "proved",
   "theorems": [
    "C70_psp_i_robust",
    "C70_coarse_solver_refuted"
   ],
   "note": "psp's own arithmetic is exact in the model. hpsp needs minimal sink sides even of exact solvers (C19_any_min_cut_refuted)"
  },
  {
   "property": "C71",
   "status": "proved",
   "theorems": [
    "C71_binary_rounding",
    "C71_truncation_floating_point"
   ],
   "note": "Overflow, underflow, NaN and infinities are outside the floating-point model; comparisons, negation, std::max and int to double are exact"
  },
  {
   "property": "C72",
   "status": "proved",
   "theorems": [
    "C72_dt_floating_point",
    "C72_dt_double",
    "C72_some_precision",
    "C72_large_weights_refuted"
   ],
   "note": "Critical values may repeat, as in C69. The max-flow solver stays an oracle with accuracy d"
  },
  {
   "property": "C73",
   "status": "proved",
   "theorems": [
    "C73_dt_run_num_floating_point"
   ],
   "note": "With inexact flows the finest optimal partition of a level need not be found, so the minimality of C13 is replaced by minimality of the level"
  },
  {
   "property": "C74",
   "status": "proved",
   "theorems": [
    "C74_get_psp_tree",
    "C74_get_psp_star",
    "C74_get_psp_path_refuted",
    "C74_get_psp_equal_refuted",
    "C74_get_psp_diverges"
   ],
   "note": "Proved for heap-ordered trees with the proviso parent_ready; counterexamples for inputs without it and for equal weights"
  },
  {
   "property": "C75",
   "status": "proved",
   "theorems": [
    "C75_demo_graph",
    "C75_random_points",
    "C75_random_size_refuted",
    "C75_similarity",
    "C75_documented_formula_refuted"
   ],
   "note": "The exponential on doubles is a parameter of the edge loop; the formula is stated over the real numbers (standard real-number axioms)"
  },
  {
   "property": "C76",
   "status": "proved",
   "theorems": [
    "C76_psp_i_floating_point",
    "C76_psp_i_double",
    "C76_some_precision",
    "C76_large_weights_refuted"
   ],
   "note": "Critical values may repeat, as in C16. The max-flow solver stays an oracle with accuracy d"
  },
  {
   "property": "C77",
   "status": "proved",
   "theorems": [
    "C77_hpsp_double_refuted"
   ],
   "note": "The universal statement of C76 for hpsp is refuted by vm_compute on tie5"
  },
  {
   "property": "C78",
   "status": "proved",
   "theorems": [
    "C78_hpsp_floating_point",
    "C78_hpsp_double",
    "C78_some_precision",
    "C78_hpsp_double_strict_refuted"
   ],
   "note": "The statement that the listed values are strictly increasing exact critical values is refuted by vm_compute on tri5"
  },
  {
   "property": "C79",
   "status": "proved",
   "theorems": [
    "C79_pdt_double_strict_refuted"
   ],
   "note": "The statement of C27 in doubles is refuted by vm_compute on star4"
  },
  {
   "property": "C80",
   "status": "proved",
   "theorems": [
    "C80_binary_monotone"
   ],
   "note": "rnd and the record of operations built from it (binary p); unbounded exponent range"
  },
  {
   "property": "C81",
   "status": "proved",
   "theorems": [
    "C81_pdt_floating_point",
    "C81_pdt_floating_point_exact",
    "C81_pdt_double"
   ],
   "note": "C79 shows that weak order cannot be improved to strict order. The exception is an explicit alternative of the theorems."
  },
  {
   "property": "C82",
   "status": "proved",
   "theorems": [
    "C82_pdt_double_returns_refuted"
   ],
   "note": "Refuted by vm_compute on edge6"
  },
  {
   "property": "C83",
   "status": "proved",
   "theorems": [
    "C83_pdt_any_weights",
    "C83_pdt_fine_grid"
   ],
   "note": "Complements C27, whose premise on eps contains a product of factorials but whose conclusion has strict order"
  },
  {
   "property": "C84",
   "status": "proved",
   "theorems": [
    "C84_pdtr_any_weights",
    "C84_pdtr_fine_grid"
   ],
   "note": "The two-worker counterpart of C83; complements C49, whose premise on eps contains a product of factorials"
  },
  {
   "property": "C85",
   "status": "proved",
   "theorems": [
    "C85_pdtr_warm_any_weights",
    "C85_pdtr_warm_fine_grid",
    "C85_run_accepted_refuted"
   ],
   "note": "Extends C59 to arbitrary weights; the refuted statement is that a whole run never rejects a flow map"
  },
  {
   "property": "C86",
   "status": "proved",
   "theorems": [
    "C86_stage_memory",
    "C86_memory",
    "C86_result",
    "C86_throw_releases_refuted"
   ],
   "note": "The refuted statement is that a run that throws releases what it has allocated"
  },
  {
   "property": "C87",
   "status": "proved",
   "theorems": [
    "C87_elevator_graph_refuted",
    "C87_elevator_older",
    "C87_inner_elevators"
   ],
   "note": "What the solver does with an elevator of another graph is not modelled: Preflow::init(ele) is in a missing submodule"
  },
  {
   "property": "C88",
   "status": "proved",
   "theorems": [
    "C88_pdt_debug_checks",
    "C88_pdt_debug_same"
   ],
   "note": "The release build is pdtw_run of C43; C88_checks_fail shows slices on which the checks do throw"
  },
  {
   "property": "C89",
   "status": "proved",
   "theorems": [
    "C89_pdtr_debug_same",
    "C89_pdtr_debug_flow_maps",
    "C89_debug_flow_maps_refuted"
   ],
   "note": "The refuted statement is that a debug build with flow maps never throws"
  },
  {
   "property": "C90",
   "status": "proved",
   "theorems": [
    "C90_forward_debug_same",
    "C90_backward_debug_throws",
    "C90_two_nodes_debug_same",
    "C90_debug_same_refuted"
   ],
   "note": "The refuted statement is that both builds agree on every simple graph"
  },
  {
   "property": "C91",
   "status": "proved",
   "theorems": [
    "C91_round_trip",
    "C91_ends",
    "C91_terminal_labels",
    "C91_terminals_refuted"
   ],
   "note": "The refuted statement is that in a file with terminals one of the two is labelled"
  },
  {
   "property": "C92",
   "status": "proved",
   "theorems": [
    "C92_reader",
    "C92_main"
   ],
   "note": "lemon::digraphReader is not in /repo; lgf_read is the LEMON graph format for the sections that occur here"
  },
  {
   "property": "C93",
   "status": "proved",
   "theorems": [
    "C93_pdt_r_floating_point",
    "C93_pdt_r_floating_point_exact",
    "C93_pdt_r_double"
   ],
   "note": "Flow maps are left out here; C85 treats them in exact arithmetic. The max flows stay an oracle"
  },
  {
   "property": "C94",
   "status": "proved",
   "theorems": [
    "C94_pdt_r_double_returns_refuted",
    "C94_pdt_r_double_strict_refuted"
   ],
   "note": "The counterparts of C82 and C79 for the class with two workers"
  },
  {
   "property": "C95",
   "status": "proved",
   "theorems": [
    "C95_methods_agree_floating_point",
    "C95_methods_agree_double",
    "C95_two_methods_double",
    "C95_unknown_method_throws",
    "C95_same_length_refuted"
   ],
   "note": "The max flows have to return the right cut (the value may be off by d); agg_psp is outside this statement"
  },
  {
   "property": "C96",
   "status": "proved",
   "theorems": [
    "C96_text_value",
    "C96_six_digits_exact",
    "C96_order",
    "C96_format",
    "C96_same_value_same_text",
    "C96_result_file_double",
    "C96_refused",
    "C96_same_file_refuted",
    "C96_distinct_values_refuted",
    "C96_example_program",
    "C96_example_same_lines",
    "C96_example_missing_partition"
   ],
   "note": "The text is defined by the C standard's %g, written out in MShow; operator<< of partitions is in a missing submodule, so partitions stay abstract lines; the example program is evaluated with two concrete exact solvers"
  },
  {
   "property": "C97",
   "status": "proved",
   "theorems": [
    "C97_text_to_text",
    "C97_unreadable",
    "C97_refused",
    "C97_converted_file"
   ],
   "note": "Exact max flows are a premise; the reader of the format (lgf_read) and the spellings of numbers (read_number) are our reading of LEMON and of operator>>, which are not in /repo"
  },
  {
   "property": "C98",
   "status": "proved",
   "theorems": [
    "C98_small_precision",
    "C98_exact",
    "C98_any_submodular_function",
    "C98_graph",
    "C98_default_precision_refuted"
   ],
   "note": "Rational arithmetic, as in C51-C58; eps0 depends on the function, fn_tol and the factor code. Whether the run with doubles and Eigen's LLT also loops on this graph is not claimed: rounding errors of the dot products are larger than the steps"
  },
  {
   "property": "C99",
   "status": "proved",
   "theorems": [
    "C99_inexact_values",
    "C99_inexact_solver",
    "C99_graph",
    "C99_rejected_round_loops",
    "C99_bound_needed_refuted"
   ],
   "note": "The error of the solver is a premise (it contains all rounding inside min_norm_base and Eigen); the comparisons and the sum -gamma + fn_tol in agglomerate are exact. C51 gives d <= sqrt(tolerance) for min_norm_base in rational arithmetic, which is why the default tolerance alone does not meet the bound (C54)"
  },
  {
   "property": "C100",
   "status": "proved",
   "theorems": [
    "C100_exact",
    "C100_any_submodular_function",
    "C100_graph",
    "C100_precision_irrelevant"
   ],
   "note": "Rational arithmetic, as in C51-C58. No termination claim: C53 and C98 have it for eps = 0 and small eps, and C98 has an endless run for 1E-15. Weights are multiples of some 1/D"
  }
 ]
}