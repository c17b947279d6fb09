{
 "claims": [
  {
   "property": "C01",
   "status": "proved",
   "theorems": [
    "C01_compress_exact_csr"
   ],
   "note": "every Num instance; indices in [0, INT_MAX)"
  },
  {
   "property": "C02",
   "status": "proved",
   "theorems": [
    "C02_weights_in_insertion_order"
   ],
   "note": "every Num instance, so bit-exact for doubles"
  },
  {
   "property": "C03",
   "status": "proved",
   "theorems": [
    "C03_order_independent",
    "C03_order_independent_weights"
   ],
   "note": "weights: exact arithmetic"
  },
  {
   "property": "C04",
   "status": "proved",
   "theorems": [
    "C04_compress_outcome",
    "C04_rejection_changes_nothing"
   ],
   "note": "complete outcome on a new object; unchanged-on-throw on every reachable object"
  },
  {
   "property": "C05",
   "status": "partial",
   "theorems": [
    "C05_reuse_partial",
    "C05_reuse_refuted",
    "C05_reuse_weights_refuted",
    "C05_reuse_exactly"
   ],
   "note": "documented reuse is false of the code (clear() keeps max indices; stale weights; both refuted). C05_reuse_partial: it holds if no row ever added is >= the new numRows. C05_reuse_exactly gives the complete behaviour for every history, list and numRows."
  },
  {
   "property": "C06",
   "status": "proved",
   "theorems": [
    "C06_cell_neighbourhood",
    "C06_unweighted_is_caught"
   ],
   "note": ""
  },
  {
   "property": "C07",
   "status": "partial",
   "theorems": [
    "C07_print_partial",
    "C07_flags_refuted"
   ],
   "note": "records and precision proved; the flags are not restored by the code (setf only adds flags). The text of the numbers is the subject of C82"
  },
  {
   "property": "C08",
   "status": "proved",
   "theorems": [
    "C08_tarjan_safe",
    "C08_reachable_safe"
   ],
   "note": "result is Ok: no UB, no failed assertion, no exhausted loop budget, for every content of malloc'ed arrays"
  },
  {
   "property": "C09",
   "status": "proved",
   "theorems": [
    "C09_tarjan_steps",
    "C09_reachable_steps"
   ],
   "note": "exact step counts; the explicit loop budget always suffices"
  },
  {
   "property": "C10",
   "status": "proved",
   "theorems": [
    "C10_C11_tarjan_sccs"
   ],
   "note": "specification in Spec/SccSpec.v (reachability = rtc of edges)"
  },
  {
   "property": "C11",
   "status": "proved",
   "theorems": [
    "C10_C11_tarjan_sccs",
    "C12_reachable_sccs"
   ],
   "note": ""
  },
  {
   "property": "C12",
   "status": "proved",
   "theorems": [
    "C12_reachable_sccs"
   ],
   "note": ""
  },
  {
   "property": "C13",
   "status": "proved",
   "theorems": [
    "C13_tarjan_deterministic",
    "C13_reachable_deterministic",
    "C13_reachable_from_all"
   ],
   "note": ""
  },
  {
   "property": "C14",
   "status": "proved",
   "theorems": [
    "C14_reverse",
    "C14_reverse_twice"
   ],
   "note": "for every result obtainable through the API"
  },
  {
   "property": "C15",
   "status": "proved",
   "theorems": [
    "C15_tarjan_memory",
    "C15_reachable_memory",
    "C15_workspace_memory",
    "C15_reverse_memory",
    "C15_callers_memory",
    "C15_null_unchecked_refuted"
   ],
   "note": "heap ledger model (Model/TarjanAlloc.v); the callers in TracerTofSolver do not check for NULL (refuted witness)"
  },
  {
   "property": "C16",
   "status": "partial",
   "theorems": [
    "C16_accepts_partial",
    "C16_reproduces",
    "C16_negative_refuted",
    "C16_accepts_exactly"
   ],
   "note": "The constructor only checks the maximum, so a negative cell index is accepted (C16_negative_refuted); the claim holds for tables without negative entries. C16_accepts_exactly gives the exact condition for every table. Accepted tables are reproduced exactly."
  },
  {
   "property": "C17",
   "status": "proved",
   "theorems": [
    "C17_two_dimensional_store"
   ],
   "note": "For every number type, every shape whose size fits size_t, every history of (also rejected and caught) writes."
  },
  {
   "property": "C18",
   "status": "partial",
   "theorems": [
    "C18_range_partial",
    "C18_wrap_refuted",
    "C18_writes_exactly",
    "C18_access_exactly"
   ],
   "note": "Proved when numConnections*numPhases fits size_t; without that the product wraps and an in-range access can leave the array (C18_wrap_refuted). The two _exactly theorems describe every shape and every sequence of accesses."
  },
  {
   "property": "C19",
   "status": "proved",
   "theorems": [
    "C19_strict_total_order"
   ],
   "note": "std::string comparison is modelled by Coq's String.compare."
  },
  {
   "property": "C20",
   "status": "proved",
   "theorems": [
    "C20_cellset_is_a_set"
   ],
   "note": "The iteration order of unordered_set is not part of the claim."
  },
  {
   "property": "C21",
   "status": "proved",
   "theorems": [
    "C21_last_assigned"
   ],
   "note": "All assignment histories."
  },
  {
   "property": "C22",
   "status": "proved",
   "theorems": [
    "C22_value_semantics",
    "C22_frame"
   ],
   "note": "Heap model with owning pointers refines value semantics for all programs over any number of objects."
  },
  {
   "property": "C23",
   "status": "proved",
   "theorems": [
    "C23_total",
    "problems_posable"
   ],
   "note": "Exact arithmetic, every valid problem incl. cyclic ones. Given enough sweeps and memory: start sets naming wells give a solution, all others runtime_error. In doubles the claim is false: C23_b64_refuted (tracer underflow ends in logic_error)."
  },
  {
   "property": "C24",
   "status": "proved",
   "theorems": [
    "C24_history_independent",
    "C24_solver_exists"
   ],
   "note": "Every number type, every history including out-of-memory and exceptions."
  },
  {
   "property": "C25",
   "status": "proved",
   "theorems": [
    "C25_support"
   ],
   "note": "Every number type."
  },
  {
   "property": "C26",
   "status": "proved",
   "theorems": [
    "C26_tracer_equation",
    "C26_tracer_equation_b64"
   ],
   "note": "Bit for bit, exact and IEEE double."
  },
  {
   "property": "C27",
   "status": "proved",
   "theorems": [
    "C27_tof_equation",
    "C27_tof_equation_b64",
    "C27_balance",
    "C27_global_equation",
    "C27_global_equation_b64"
   ],
   "note": "The formula holds bit for bit in both arithmetics, the balance in exact arithmetic; the same for the global time-of-flight."
  },
  {
   "property": "C28",
   "status": "proved",
   "theorems": [
    "C28_unit_interval",
    "C28_unit_interval_b64"
   ],
   "note": "Exact and IEEE double (the latter if the totals do not overflow), with or without cycles."
  },
  {
   "property": "C29",
   "status": "proved",
   "theorems": [
    "C29_tof_range",
    "C29_tof_range_b64"
   ],
   "note": "Exact arithmetic: every value is a finite number in [0, max_tof]. Doubles: 0 <= t <= max_tof, so no value is NaN, provided the total influx of every cell is finite (no_overflow). Both the local and the global time-of-flight."
  },
  {
   "property": "C30",
   "status": "proved",
   "theorems": [
    "C30_terminates"
   ],
   "note": "Exact arithmetic; a number of sweeps exists for every valid problem and is enough for all start sets. In doubles false: C62_endless_b64."
  },
  {
   "property": "C31",
   "status": "proved",
   "theorems": [
    "C31_near_solution",
    "C31_tof_near_solution",
    "C31_global_near_solution"
   ],
   "note": "Covers every cell the loop is run on (members of components with two or more cells are regular) and all others without a self-connection. Outside that, C31_self_connection_refuted shows a lone cell connected to itself gets 1/2 instead of 1. C31_tof_ex shows the values on a cycle."
  },
  {
   "property": "C32",
   "status": "proved",
   "theorems": [
    "C32_fluxes",
    "C32_totals"
   ],
   "note": "Fluxes for every number type, totals in exact arithmetic."
  },
  {
   "property": "C33",
   "status": "proved",
   "theorems": [
    "C33_last_inputs"
   ],
   "note": "Every number type and history."
  },
  {
   "property": "C34",
   "status": "proved",
   "theorems": [
    "C34_rejects"
   ],
   "note": "Every number type and history; a rejected call leaves the state equal, so all later observations agree."
  },
  {
   "property": "C35",
   "status": "proved",
   "theorems": [
    "C35_unset",
    "C35_start_sets"
   ],
   "note": "Every number type and history; the state after the exception is equal to the state before."
  },
  {
   "property": "C36",
   "status": "proved",
   "theorems": [
    "C36_flow_graph",
    "C36_built"
   ],
   "note": "Every number type; weights in the reverse graph are the same term arc_flux, hence bitwise equal."
  },
  {
   "property": "C37",
   "status": "proved",
   "theorems": [
    "C37_independent",
    "C37_others",
    "C37_fewer"
   ],
   "note": "Every number type."
  },
  {
   "property": "C38",
   "status": "proved",
   "theorems": [
    "C38_reversed",
    "C38_reversed_b64",
    "C38_problem",
    "C38_problem_b64"
   ],
   "note": "Every sequence of calls, every allocation behaviour, exact and IEEE doubles; all observations equal, exceptions included."
  },
  {
   "property": "C39",
   "status": "proved",
   "theorems": [
    "C39_partition",
    "C39_b64_refuted"
   ],
   "note": "Both directions; cells with positive total influx; duplicates in the request are allowed. In doubles the sum can miss 1 by rounding: C39_b64_refuted."
  },
  {
   "property": "C40",
   "status": "proved",
   "theorems": [
    "C40_rates"
   ],
   "note": "Every number type."
  },
  {
   "property": "C41",
   "status": "proved",
   "theorems": [
    "C41_accepted",
    "C41_rates_kept"
   ],
   "note": "Every number type."
  },
  {
   "property": "C42",
   "status": "proved",
   "theorems": [
    "C42_fphi_ramp",
    "C42_fphi_ramp_b64",
    "C42_zero_time_refuted"
   ],
   "note": "Exact arithmetic: full statement. IEEE doubles: same, unless a total overflows or is zero, when the last coordinate is NaN. std::sort is any sorting function. Zero travel times give NaN (shown)."
  },
  {
   "property": "C43",
   "status": "proved",
   "theorems": [
    "C43_fphi_concave"
   ],
   "note": "Exact arithmetic."
  },
  {
   "property": "C44",
   "status": "proved",
   "theorems": [
    "C44_lorenz_range",
    "C44_empty_graph"
   ],
   "note": "Exact arithmetic; the empty graph (not a computed curve) gives -1."
  },
  {
   "property": "C45",
   "status": "proved",
   "theorems": [
    "C45_sweep"
   ],
   "note": "Exact arithmetic."
  },
  {
   "property": "C46",
   "status": "proved",
   "theorems": [
    "C46_volume_value",
    "C46_volume_out_of_range",
    "C46_volume_range",
    "C46_volume_pairs",
    "C46_volume_total"
   ],
   "note": "Exact arithmetic."
  },
  {
   "property": "C47",
   "status": "proved",
   "theorems": [
    "C47_flux_errors",
    "C47_flux_value",
    "C47_flux_sign"
   ],
   "note": "Errors for every arithmetic; values and signs exact."
  },
  {
   "property": "C48",
   "status": "proved",
   "theorems": [
    "C48_pair_flux",
    "C48_pair_flux_cyclic",
    "C48_b64_refuted"
   ],
   "note": "Exact arithmetic; the cyclic version bounds the sum by the tolerance times the total flux. In doubles the two fluxes can differ by rounding: C48_b64_refuted."
  },
  {
   "property": "C49",
   "status": "proved",
   "theorems": [
    "C49_fphi_permutation"
   ],
   "note": "Exact arithmetic, all inputs, any two sorting algorithms."
  },
  {
   "property": "C50",
   "status": "partial",
   "theorems": [
    "C50_cutoff_partial",
    "C50_cutoff_refuted",
    "C50_fraction_one",
    "C50_fraction_one_b64",
    "C50_cutoff_exactly"
   ],
   "note": "Needs travel times below 1e100 (the marker of ignored cells); refuted without the bound. C50_cutoff_exactly gives the curve for all travel times. Fraction 1 ignores nothing: exact and IEEE."
  },
  {
   "property": "C51",
   "status": "proved",
   "theorems": [
    "C51_fphi_sizes",
    "C51_lorenz_sizes",
    "C51_sweep_sizes"
   ],
   "note": "Every arithmetic."
  },
  {
   "property": "C52",
   "status": "proved",
   "theorems": [
    "C52_independent_objects",
    "C52_reproducible",
    "C52_lengths",
    "C52_one_stream"
   ],
   "note": "For every generator and distribution (they are parameters of the model)."
  },
  {
   "property": "C53",
   "status": "proved",
   "theorems": [
    "C53_net_flow",
    "C53_phases",
    "C53_idle",
    "C53_orientation",
    "C53_orientation_b64",
    "C53_order",
    "C53_order_b64_refuted"
   ],
   "note": "Net fluxes, phases and idle connections for every arithmetic, orientation for exact and double arithmetic, order for exact arithmetic; a witness shows that in doubles the order matters."
  },
  {
   "property": "C54",
   "status": "proved",
   "theorems": [
    "C54_scaled"
   ],
   "note": "Exact arithmetic; all outcomes, non-finite data included."
  },
  {
   "property": "C55",
   "status": "proved",
   "theorems": [
    "C55_unique_well",
    "C55_unique_well_b64",
    "C55_unique_all",
    "C55_unique_all_b64"
   ],
   "note": "That the returned values satisfy the equations is C26 and C27."
  },
  {
   "property": "C56",
   "status": "proved",
   "theorems": [
    "C56_causality",
    "C56_causality_b64"
   ],
   "note": ""
  },
  {
   "property": "C57",
   "status": "proved",
   "theorems": [
    "C57_renumbered"
   ],
   "note": "Exact arithmetic: sums are taken in the order of the cells."
  },
  {
   "property": "C58",
   "status": "proved",
   "theorems": [
    "C58_local_rejects",
    "C58_local_support",
    "C58_global_length",
    "C58_local_total",
    "C58_unsourced_start"
   ],
   "note": "The first three hold in every arithmetic, the last two are in exact arithmetic; in doubles overflow or underflow of a tracer can end a solve otherwise (C23_b64_refuted)."
  },
  {
   "property": "C59",
   "status": "proved",
   "theorems": [
    "C59_pair_rates",
    "C59_b64_refuted"
   ],
   "note": "all wells diagnosed, exact arithmetic, no cycles; off by rounding in doubles: C59_b64_refuted"
  },
  {
   "property": "C60",
   "status": "proved",
   "theorems": [
    "C60_mean",
    "C60_b64_refuted"
   ],
   "note": "all wells of the direction diagnosed, exact arithmetic, no cycles; off by rounding in doubles: C60_b64_refuted"
  },
  {
   "property": "C61",
   "status": "proved",
   "theorems": [
    "C61_swept_volume",
    "C61_total_volume",
    "C61_b64_refuted"
   ],
   "note": "exact arithmetic, no cycles; for the wells and for the global time-of-flight; off by rounding in doubles: C61_b64_refuted"
  },
  {
   "property": "C62",
   "status": "proved",
   "theorems": [
    "C62_no_cycles",
    "C62_endless_b64"
   ],
   "note": "No iteration without cycles, for every arithmetic. The endless run is a network of 29 cells in which a tracer is diluted to subnormal concentrations; the kernel computes the first sweeps until the state repeats."
  },
  {
   "property": "C63",
   "status": "proved",
   "theorems": [
    "C63_wells",
    "C63_all_wells",
    "C63_by_size",
    "C63_all_by_size",
    "C63_concentrations"
   ],
   "note": "Flow without cycles. The global times need that nothing flows out of cells into which nothing flows."
  },
  {
   "property": "C64",
   "status": "proved",
   "theorems": [
    "C64_sweeps_unbounded",
    "C64_counter_overflow"
   ],
   "note": "Two cells with a flux of 2n+3 of which 2n+2 come back: closed form of all iterates for both orders of the cells."
  },
  {
   "property": "C65",
   "status": "proved",
   "theorems": [
    "C65_tof_grows",
    "C65_tof_grows_b64",
    "C65_slow_refuted",
    "C65_slow_b64_refuted"
   ],
   "note": "Needs the same slow cells in both problems; the refutations show why."
  },
  {
   "property": "C66",
   "status": "proved",
   "theorems": [
    "C66_lorenz_gini"
   ],
   "note": "Exact arithmetic. The area under the curve is related to the mean difference by induction over the sorted cells."
  },
  {
   "property": "C67",
   "status": "proved",
   "theorems": [
    "C67_sweep_filled"
   ],
   "note": "Exact arithmetic."
  },
  {
   "property": "C68",
   "status": "proved",
   "theorems": [
    "C68_distribution"
   ],
   "note": "Exact arithmetic; through the closed forms of C66 and C67."
  },
  {
   "property": "C69",
   "status": "proved",
   "theorems": [
    "C69_counters",
    "C69_returns",
    "C69_no_cycles",
    "C69_programs",
    "C69_overflow",
    "C69_overflow_b64"
   ],
   "note": "solver with counters simulated by the solver without"
  },
  {
   "property": "C70",
   "status": "proved",
   "theorems": [
    "C70_bound",
    "C70_at_most_one",
    "C70_b64_refuted"
   ],
   "note": "comparison with the iteration that updates all cells at once, summed over wells; refuted for doubles: rates 9, 18, 1 in one cell"
  },
  {
   "property": "C71",
   "status": "proved",
   "theorems": [
    "C71_recovered",
    "C71_error",
    "C71_pair_rates"
   ],
   "note": "residuals of C31 summed over cells by conservation; C70 for the sign"
  },
  {
   "property": "C72",
   "status": "proved",
   "theorems": [
    "C72_as_values",
    "C72_no_leak",
    "C72_self_move",
    "C72_after_move"
   ],
   "note": "All programs over construction, move construction, move assignment, destruction and calls; refinement to values without pointers."
  },
  {
   "property": "C73",
   "status": "proved",
   "theorems": [
    "C73_met",
    "C73_recovered",
    "C73_error",
    "C73_shares"
   ],
   "note": "Doubles; concentrations only (times-of-flight on cycles are not covered). Data of ordinary size as in C63."
  },
  {
   "property": "C74",
   "status": "proved",
   "theorems": [
    "C74_defined",
    "C74_exactly",
    "C74_graphs",
    "C74_fluxes",
    "C74_asserts_b64",
    "C74_asserts_overflow_refuted",
    "C74_nan_refuted"
   ],
   "note": "The unchecked condition (rates of the direction in cells of the graph) is shown necessary: C74_exactly. Two finite fluxes of 2^1023 into one cell hit an assertion or return NaN: the two _refuted theorems."
  },
  {
   "property": "C75",
   "status": "proved",
   "theorems": [
    "C75_concentrations",
    "C75_times",
    "C75_merged",
    "C75_b64_refuted"
   ],
   "note": "Exact arithmetic, no cycles; C75_b64_refuted shows the rounding error in doubles."
  },
  {
   "property": "C76",
   "status": "proved",
   "theorems": [
    "C76_pair_volume",
    "C76_either",
    "C76_pair_near",
    "C76_swept_near"
   ],
   "note": "exact arithmetic; equalities without cycles, bounds with cycles"
  },
  {
   "property": "C77",
   "status": "proved",
   "theorems": [
    "C77_volume",
    "C77_fluxes",
    "C77_balance"
   ],
   "note": "Networks without cycles; data of ordinary size; exact concentrations of at least 2^-300."
  },
  {
   "property": "C78",
   "status": "proved",
   "theorems": [
    "C78_curve",
    "C78_lorenz",
    "C78_lorenz_exact",
    "C78_range",
    "C78_unit_interval_refuted"
   ],
   "note": "For every sorting algorithm and fraction 1 (C50_fraction_one_b64 reduces other fractions that cut nothing off to it). C78_curve: relative errors of the points of the curve; C78_lorenz: against the order-free formula of C66; C78_lorenz_exact: against the exact run; C78_range and its witness C78_unit_interval_refuted: the coefficient of doubles leaves the unit interval only by rounding, but does."
  },
  {
   "property": "C79",
   "status": "proved",
   "theorems": [
    "C79_journeys",
    "C79_concentration",
    "C79_time_of_flight",
    "C79_global",
    "C79_global_mean",
    "C79_below"
   ],
   "note": "Exact arithmetic. The journeys are enumerated (C79_journeys: every journey once). Both sums satisfy the same equations as the computed values, which have one solution without cycles; with cycles the sums dominate every iterate."
  },
  {
   "property": "C80",
   "status": "proved",
   "theorems": [
    "C80_journeys",
    "C80_flux",
    "C80_volume",
    "C80_between",
    "C80_mirrored"
   ],
   "note": "exact arithmetic, networks without cycles"
  },
  {
   "property": "C81",
   "status": "proved",
   "theorems": [
    "C81_same",
    "C81_tarjan",
    "C81_reachable",
    "C81_component",
    "C81_graph",
    "C81_unweighted",
    "C81_defined",
    "C81_exactly",
    "C81_agrees",
    "C81_agrees_b64",
    "C81_overflow_refuted"
   ],
   "note": "NDEBUG versions of all functions with assertions are in Model/Release.v; C81_agrees_b64 needs that totals do not overflow, C81_overflow_refuted shows why"
  },
  {
   "property": "C82",
   "status": "proved",
   "theorems": [
    "C82_number",
    "C82_unique",
    "C82_text",
    "C82_lossless",
    "C82_fixed",
    "C82_precision_refuted",
    "C82_rows_refuted",
    "C82_hex_number",
    "C82_hex_unique",
    "C82_hex_text"
   ],
   "note": "the inserters of the standard library for int and double are modelled in Model/Text.v (classic locale, field width 0)"
  },
  {
   "property": "C83",
   "status": "proved",
   "theorems": [
    "C83_recovers",
    "C83_defined",
    "C83_pore_volumes",
    "C83_flux_cached",
    "C83_flux_UB",
    "C83_flux_refuted",
    "C83_rates_refuted",
    "C83_rates_complete",
    "C83_add_detected",
    "C83_add_refuted",
    "C83_compress_again"
   ],
   "note": "programs with failing allocations simulate programs without the failed calls; the three _refuted theorems and C83_flux_UB show what goes wrong without repair"
  },
  {
   "property": "C84",
   "status": "proved",
   "theorems": [
    "C84_stable",
    "C84_lorenz"
   ],
   "note": "against exact arithmetic; the travel times of the exact run must be at least 2^-99; flows with cycles are not covered"
  },
  {
   "property": "C85",
   "status": "proved",
   "theorems": [
    "C85_words",
    "C85_exists",
    "C85_predictable",
    "C85_alive",
    "C85_index",
    "C85_index_defined",
    "C85_fair",
    "C85_normal",
    "C85_canonical",
    "C85_canonical_b64",
    "C85_polar",
    "C85_normal_pieces",
    "C85_normal_odd",
    "C85_instance"
   ],
   "note": "generator of the C++ standard, distributions of libstdc++; log and sqrt are parameters; calls that return (C85_index_defined says when index does)"
  },
  {
   "property": "C86",
   "status": "proved",
   "theorems": [
    "C86_condition",
    "C86_linear",
    "C86_sharp",
    "C86_slow_refuted"
   ],
   "note": "Exact arithmetic, no cycles. C86_sharp: the exponent for concentrations is the least one, for every depth; the exponent for times-of-flight is not claimed to be least. C86_slow_refuted: without the condition on slow cells the bound fails."
  },
  {
   "property": "C87",
   "status": "proved",
   "theorems": [
    "C87_flux",
    "C87_volume",
    "C87_feeds",
    "C87_fed",
    "C87_apart_volume",
    "C87_apart_flux_b64",
    "C87_b64_refuted"
   ],
   "note": "Positivity iff connection for exact arithmetic, cycles included; zero for unconnected wells for doubles as well. C87_b64_refuted: with doubles a connected pair may show zero flux and volume by underflow."
  },
  {
   "property": "C88",
   "status": "proved",
   "theorems": [
    "C88_tarjan_refines",
    "C88_reachable_refines",
    "C88_tarjan_defined",
    "C88_reachable_defined",
    "C88_reachable_roomy",
    "C88_tarjan_undefined",
    "C88_reachable_undefined",
    "C88_strong_undefined",
    "C88_row_undefined",
    "C88_refuted"
   ],
   "note": "Graphs whose first vertex reaches all and where the search can turn aside are not decided by the theorems: there the order of the edges matters (C88_ex_order)."
  },
  {
   "property": "C89",
   "status": "proved",
   "theorems": [
    "C89_wells",
    "C89_all_wells",
    "C89_by_size"
   ],
   "note": "C63 and C86 together; the phase fluxes of a connection may add up with rounding, which C63 excludes"
  },
  {
   "property": "C90",
   "status": "proved",
   "theorems": [
    "C90_well",
    "C90_others",
    "C90_times",
    "C90_tof_refuted",
    "C90_unfed_refuted",
    "C90_slow_refuted"
   ],
   "note": "Exact arithmetic, no cycles. C90_tof_refuted is the last sentence of the statement: another well's own time-of-flight can grow. The other two refutations show that both conditions for the times-of-flight are needed."
  },
  {
   "property": "C91",
   "status": "proved",
   "theorems": [
    "C91_reachable",
    "C91_edges",
    "C91_opposite",
    "C91_reversed"
   ],
   "note": "Components are compared as sets of vertices, in any order."
  },
  {
   "property": "C92",
   "status": "proved",
   "theorems": [
    "C92_well",
    "C92_all_wells",
    "C92_unit_of_time"
   ],
   "note": "Exact arithmetic, no cycles, no cell under the cut-off. C65_slow_refuted shows that slow cells break even monotonicity."
  },
  {
   "property": "C93",
   "status": "proved",
   "theorems": [
    "C93_same_side",
    "C93_left_out",
    "C93_no_other"
   ],
   "note": "In any arithmetic, with cycles, for results and exceptions alike; the rates of the other direction, wells without rates and zero entries may differ."
  },
  {
   "property": "C94",
   "status": "proved",
   "theorems": [
    "C94_concentrations",
    "C94_concentrations_b64",
    "C94_pair_fluxes",
    "C94_pair_fluxes_b64",
    "C94_cycles_refuted",
    "C94_pair_volumes"
   ],
   "note": "Equal maps, not only close values. C94_cycles_refuted shows that the absence of cycles is needed."
  }
 ]
}