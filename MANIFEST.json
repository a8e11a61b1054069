{
 "claims": [
  {
   "property": "C01",
   "status": "proved",
   "theorems": [
    "C01_naive_optimal",
    "C01_naive_optimal_f64",
    "C01_naive_optimal_generic",
    "C01_single_vertex"
   ],
   "note": "Exact arithmetic for all sizes, doubles for integer multiples of a power of two, and generically. n = 1 (reported cost infinity) is outside the property and shown in C01_single_vertex."
  },
  {
   "property": "C02",
   "status": "partial",
   "theorems": [
    "C02_first_optimal_partial",
    "C02_first_optimal_f64_partial",
    "C02_two_vertices_refuted",
    "C02_asymmetric_refuted",
    "C02_empty_panics"
   ],
   "note": "Proved for n >= 3. The full statement is false of the code: for n = 2 the only tour is never evaluated and infinity is reported."
  },
  {
   "property": "C03",
   "status": "proved",
   "theorems": [
    "C03_second_optimal",
    "C03_second_optimal_f64",
    "C03_second_optimal_generic"
   ],
   "note": ""
  },
  {
   "property": "C04",
   "status": "proved",
   "theorems": [
    "C04_third_optimal",
    "C04_third_optimal_f64",
    "C04_third_optimal_generic",
    "C04_negative_refuted"
   ],
   "note": "Nonnegative costs are needed: C04_negative_refuted."
  },
  {
   "property": "C05",
   "status": "partial",
   "theorems": [
    "C05_fourth_optimal_refuted",
    "C05_fourth_tour_partial",
    "C05_fourth_log_partial",
    "C05_fourth_log_f64_partial",
    "C05_no_factor_refuted",
    "C05_fourth_rounded_partial",
    "C05_fourth_command_partial",
    "C05_fourth_generated_partial"
   ],
   "note": "The full statement is FALSE of the code (the nearest-neighbour bound overestimates); proved: a genuine tour with its cost is returned, and with the triangle inequality it costs at most ceil(log2(n-2))/2+1 times any tour (also on arbitrary doubles, up to slack and rounding, for the command, and for generated documents); without it no factor holds (C05_no_factor_refuted)."
  },
  {
   "property": "C06",
   "status": "partial",
   "theorems": [
    "C06_fifth_optimal_refuted",
    "C07_fifth_factor_two"
   ],
   "note": "The full statement is false of the code, even on metric instances (the tree is counted twice in the bound); C07 is what remains true."
  },
  {
   "property": "C07",
   "status": "proved",
   "theorems": [
    "C07_fifth_factor_two",
    "C07_fifth_factor_two_f64"
   ],
   "note": ""
  },
  {
   "property": "C08",
   "status": "proved",
   "theorems": [
    "C08_sixth_equals_fifth",
    "C08_sixth_tour_any_hash",
    "C08_collision_refuted"
   ],
   "note": "C08_collision_refuted shows that the no-collision hypothesis is needed."
  },
  {
   "property": "C09",
   "status": "proved",
   "theorems": [
    "C09_genuine_tours",
    "C09_no_panic",
    "C09_infinite_cost_refuted"
   ],
   "note": "C09_infinite_cost_refuted: with one missing (infinite) edge V2 returns infinity and the empty path although finite tours exist."
  },
  {
   "property": "C10",
   "status": "proved",
   "theorems": [
    "C10_next_permutation",
    "C10_iteration_reaches_all"
   ],
   "note": ""
  },
  {
   "property": "C11",
   "status": "proved",
   "theorems": [
    "C11_chunks_cover",
    "C11_chunks_consecutive",
    "C11_panics_iff",
    "C11_exclusive_reading_refuted"
   ],
   "note": "The doc comment's 'exclusive' maximum is refuted (C11_exclusive_reading_refuted). usize overflow of basis^digits is not modelled."
  },
  {
   "property": "C12",
   "status": "proved",
   "theorems": [
    "C12_successor",
    "C12_overflow_iff",
    "C12_conversion_inverse",
    "C12_iteration_visits_all"
   ],
   "note": ""
  },
  {
   "property": "C13",
   "status": "proved",
   "theorems": [
    "C13_schedules_agree",
    "C13_minimum_of_prefixes",
    "C13_every_schedule_finishes"
   ],
   "note": "Every ordered arithmetic, doubles included."
  },
  {
   "property": "C14",
   "status": "proved",
   "theorems": [
    "C14_threaded_factor_two",
    "C14_threaded_factor_two_f64",
    "C14_every_tour_covered",
    "C14_two_vertices_refuted"
   ],
   "note": "C14_two_vertices_refuted shows that n >= 3 is needed."
  },
  {
   "property": "C15",
   "status": "proved",
   "theorems": [
    "C15_no_deadlock",
    "C15_no_worker_panics",
    "C15_no_infinite_run",
    "C15_channels",
    "C15_least_reported_wins",
    "C15_all_ranks_agree",
    "C15_negative_costs_refuted"
   ],
   "note": "Every nonnegative matrix in every ordered arithmetic (doubles with rounding and overflow included), every interleaving. When some worker holds no path the final broadcast fails (a case of C15_least_reported_wins). C15_negative_costs_refuted: with a negative cost the protocol hangs."
  },
  {
   "property": "C16",
   "status": "partial",
   "theorems": [
    "C16_static_factor_two",
    "C16_static_factor_two_f64",
    "C16_exactly",
    "C16_exactly_f64",
    "C16_every_tour_covered",
    "C16_idle_worker_panics",
    "C16_more_workers_refuted",
    "C16_two_vertices_refuted",
    "C16_single_process_refuted",
    "C16_too_many_workers_panic"
   ],
   "note": "C16_exactly decides the property for every number of processes from two on and n >= 3: with t = size - 1 workers, every run returns one genuine tour of at most twice the least cost if t (n+4) <= n^3 or n^3 < 2t <= 2(n^3-n-3), and every run panics otherwise. The full statement is false of the code for the other t (some worker has no prefix, the final broadcast fails), for size 1 (infinity, zeros) and for n = 2."
  },
  {
   "property": "C17",
   "status": "partial",
   "theorems": [
    "C17_no_deadlock",
    "C17_no_worker_panics",
    "C17_no_infinite_run",
    "C17_channels",
    "C17_each_prefix_once",
    "C17_least_reported_wins",
    "C17_all_ranks_agree",
    "C17_dynamic_factor_two",
    "C17_one_worker_returns",
    "C17_may_return",
    "C17_may_panic",
    "C17_too_many_workers_panic",
    "C17_late_worker_refuted",
    "C17_three_vertices_refuted",
    "C17_single_process_refuted"
   ],
   "note": "n >= 4. The full statement is false of the code: with three processes or more, whatever the costs, a worker that starts late may get no prefix and then the final broadcast panics (C17_may_panic); n = 3 panics; a single process returns infinity. All the rest (no deadlock, each prefix once, agreement whenever the call returns, factor two) is proved."
  },
  {
   "property": "C18",
   "status": "proved",
   "theorems": [
    "C18_spanning_tree",
    "C18_nothing_left"
   ],
   "note": "any arithmetic; single-threaded version, the others by C20/C21"
  },
  {
   "property": "C19",
   "status": "proved",
   "theorems": [
    "C19_minimum_weight",
    "C19_minimum_weight_f64"
   ],
   "note": "exact integers and doubles that are multiples of one power of two with sums below 2^53 units"
  },
  {
   "property": "C20",
   "status": "proved",
   "theorems": [
    "C20_multi_is_single",
    "C20_prim_modes_agree"
   ],
   "note": "any arithmetic, every schedule and reduction tree"
  },
  {
   "property": "C21",
   "status": "proved",
   "theorems": [
    "C21_same_weight",
    "C21_same_weight_f64"
   ],
   "note": "every tie-breaking choice of the queue"
  },
  {
   "property": "C22",
   "status": "proved",
   "theorems": [
    "C22_mst_below_every_tour",
    "C22_mst_below_every_tour_f64"
   ],
   "note": "all three modes and the queue version"
  },
  {
   "property": "C23",
   "status": "proved",
   "theorems": [
    "C23_one_tree_value",
    "C23_one_tree_value_f64",
    "C23_small"
   ],
   "note": "also the exact value"
  },
  {
   "property": "C24",
   "status": "proved",
   "theorems": [
    "C24_par_is_seq",
    "C24_mpi_maximum",
    "C24_mpi_is_seq",
    "C24_mpi_is_seq_f64",
    "C24_too_many_processes"
   ],
   "note": ""
  },
  {
   "property": "C25",
   "status": "proved",
   "theorems": [
    "C25_greedy_tour",
    "C25_exact",
    "C25_exact_f64",
    "C25_bad_start"
   ],
   "note": "Greedy Hamiltonian tour and cost = evaluate_circle, in every arithmetic with a total order; on one vertex the cost is 0 + m[0,0] (evaluate_circle gives 0 there)."
  },
  {
   "property": "C26",
   "status": "proved",
   "theorems": [
    "C26_best_start",
    "C26_par_is_seq",
    "C26_exact",
    "C26_exact_f64",
    "C26_all_starts",
    "C26_bad_count"
   ],
   "note": "The random choice is the Fisher-Yates shuffle of the rand crate with arbitrary draws."
  },
  {
   "property": "C27",
   "status": "proved",
   "theorems": [
    "C27_all_ranks_agree",
    "C27_mpi_is_seq",
    "C27_exact_f64",
    "C27_too_many_processes",
    "C27_operator_commutative",
    "C27_operator_associative"
   ],
   "note": "For 1 <= size <= n; larger worlds panic. The reduction order and association are arbitrary per rank. NaN costs are excluded for the operator."
  },
  {
   "property": "C28",
   "status": "partial",
   "theorems": [
    "C28_sequential",
    "C28_mpi",
    "C28_mpi_single_vertex_panics",
    "C28_parallel_partial",
    "C28_parallel_refuted"
   ],
   "note": "Sequential mode proved in full; MPI for n >= 2 (n = 1 panics). The full statement is FALSE of the code in parallel mode: when the heuristic matching lists a pair twice, an increment made through raw pointers can be lost and the search for the Eulerian cycle never ends (C28_parallel_refuted); proved for runs whose matching repeats no pair."
  },
  {
   "property": "C29",
   "status": "proved",
   "theorems": [
    "C29_eulerian",
    "C29_walk_reaches_all"
   ],
   "note": ""
  },
  {
   "property": "C30",
   "status": "partial",
   "theorems": [
    "C30_listed_partial",
    "C30_perfect_partial",
    "C30_refuted"
   ],
   "note": "The full statement is FALSE of the code (one branch of optimize_two_matching). Proved: the right number of pairs, all of listed vertices, for every outcome; perfect when no four listed vertices reach the faulty branch."
  },
  {
   "property": "C31",
   "status": "partial",
   "theorems": [
    "C31_step_partial",
    "C31_cost_partial",
    "C31_cost_f64_partial",
    "C31_refuted"
   ],
   "note": "The full statement is FALSE of the code (same branch). Proved: the exact result of a step, and monotone cost when no four vertices reach the branch."
  },
  {
   "property": "C32",
   "status": "proved",
   "theorems": [
    "C32_three_halves",
    "C32_three_halves_f64",
    "C32_tree_and_matching"
   ],
   "note": "integers and exactly representable doubles; all three modes"
  },
  {
   "property": "C33",
   "status": "proved",
   "theorems": [
    "C33_parallel_multigraph",
    "C33_matching_repeats_no_pair",
    "C33_repeated_pair_races"
   ],
   "note": "C33_repeated_pair_races: the restriction on the matching is needed."
  },
  {
   "property": "C34",
   "status": "proved",
   "theorems": [
    "C34_parallel_is_sequential",
    "C34_mpi_cheapest",
    "C34_mpi_empty_panics"
   ],
   "note": ""
  },
  {
   "property": "C35",
   "status": "proved",
   "theorems": [
    "C35_namatrix",
    "C35_accepted",
    "C35_copy",
    "C35_out_of_range_panics"
   ],
   "note": "Every graph, any arithmetic. The diagonal is zero in NAMatrix and infinite in VecMatrix."
  },
  {
   "property": "C36",
   "status": "proved",
   "theorems": [
    "C36_sum_of_steps",
    "C36_no_step",
    "C36_circle_is_tour_cost",
    "C36_circle_f64",
    "C36_rotation",
    "C36_reversal"
   ],
   "note": ""
  },
  {
   "property": "C37",
   "status": "proved",
   "theorems": [
    "C37_what_is_tested",
    "C37_decides_triangle",
    "C37_accepts_f64",
    "C37_decides_triangle_f64",
    "C37_asymmetric_refuted"
   ],
   "note": "Integers: tolerance 0. Doubles: exactly satisfied inequalities are always accepted; multiples of 2^e, e >= -32, are decided. Symmetry is needed (C37_asymmetric_refuted)."
  },
  {
   "property": "C38",
   "status": "proved",
   "theorems": [
    "C38_from_points",
    "C38_par_from_points",
    "C38_f64",
    "C38_infinite_refuted"
   ],
   "note": "Finite coordinates; C38_infinite_refuted shows that an infinite coordinate makes the two constructors differ. powi(2) is modelled as one rounded multiplication."
  },
  {
   "property": "C39",
   "status": "proved",
   "theorems": [
    "C39_decides_cycles",
    "C39_accepts",
    "C39_open_path_refuted"
   ],
   "note": "For paths that end where they start, the assumption of the doc comment; C39_accepts says what is accepted in general and C39_open_path_refuted that an open path can be."
  },
  {
   "property": "C40",
   "status": "partial",
   "theorems": [
    "C40_accepts_exactly_complete_partial",
    "C40_self_loop_refuted"
   ],
   "note": "The full statement is FALSE of the code: a self loop may stand for a missing edge (C40_self_loop_refuted). Without self loops the accepted graphs are exactly the complete undirected ones."
  },
  {
   "property": "C41",
   "status": "proved",
   "theorems": [
    "C41_checked",
    "C41_error_or_panic"
   ],
   "note": "quick_xml is the parameter doc."
  },
  {
   "property": "C42",
   "status": "proved",
   "theorems": [
    "C42_ordered",
    "C42_ordered_f64",
    "C42_documents",
    "C42_approx_with_bound",
    "C42_approx_with_bound_f64"
   ],
   "note": "Whole runs, from the accepted document to the printed lines, all n >= 3, all nonnegative distances, every kind of parallelism for the bounds and for nearest neighbour (with MPI: at most n processes). C42_documents: the documents of the theorems are exactly the accepted loop-free graphs."
  },
  {
   "property": "C43",
   "status": "proved",
   "theorems": [
    "C01_naive_optimal_f64",
    "C02_first_optimal_f64_partial",
    "C03_second_optimal_f64",
    "C04_third_optimal_f64",
    "C07_fifth_factor_two_f64",
    "C14_threaded_factor_two_f64",
    "C16_static_factor_two_f64",
    "C19_minimum_weight_f64",
    "C21_same_weight_f64",
    "C22_mst_below_every_tour_f64",
    "C23_one_tree_value_f64",
    "C24_mpi_is_seq_f64",
    "C25_exact_f64",
    "C26_exact_f64",
    "C27_exact_f64",
    "C32_three_halves_f64",
    "C36_circle_f64",
    "C42_ordered_f64"
   ],
   "note": "Flocq binary64, round to nearest even. Each theorem bounds the sums by 2^53 units explicitly. The suffix _partial of C02 is about n <= 2 and asymmetric matrices."
  },
  {
   "property": "C44",
   "status": "partial",
   "theorems": [
    "C44_naive_rounded_partial",
    "C44_naive_rounded_refuted",
    "C44_second_rounded_refuted",
    "C44_third_rounded_refuted",
    "C44_reported_cost_refuted"
   ],
   "note": "The full statement is false of the code: += / -= drift in the recursive solvers and the sorted tour that V0 skips. Proved: V0 is minimal over all tours but the sorted one in any ordered arithmetic. How far the others can be off is C52 and C61."
  },
  {
   "property": "C45",
   "status": "partial",
   "theorems": [
    "C45_unreadable",
    "C45_not_accepted",
    "C45_single_partial",
    "C45_threads_partial",
    "C45_mpi_v0_partial",
    "C45_mpi_v0_exactly",
    "C45_mpi_v1_partial",
    "C45_mpi_v1_exactly",
    "C45_threads_ignore_algorithm_refuted",
    "C45_threads_not_v0_refuted",
    "C45_mpi_unimplemented_refuted",
    "C45_mpi_alone_refuted",
    "C45_bound_after_mpi_refuted",
    "C45_queue_ignores_parallelism_refuted"
   ],
   "note": "The full statement is FALSE of the code: with threads the algorithm is ignored, with MPI only V0 and V1 exist (and stand for other algorithms), mst-queue ignores the parallelism, and approx with MPI followed by the 1-tree bound panics. Proved: what each combination does print."
  },
  {
   "property": "C46",
   "status": "partial",
   "theorems": [
    "C46_priority_queue_edges_refuted",
    "C21_same_weight"
   ],
   "note": "the statement is FALSE of the code (witness); what holds is the total weight, C21"
  },
  {
   "property": "C47",
   "status": "partial",
   "theorems": [
    "C47_refuted",
    "C47_two_odd_partial",
    "C47_quarter_partial",
    "C47_half_n_partial",
    "C47_command_rounded_partial",
    "C47_generated_partial"
   ],
   "note": "The statement (asserted by the repository's own test on one instance) is FALSE of the code; it holds when the tree has two odd vertices. Proved for all metric instances: factor 1+k/4 for k odd tree vertices when the matching is perfect, and n/2 always (sequential and MPI; parallel mode may panic, C28), also for the command on arbitrary doubles and for generated documents."
  },
  {
   "property": "C48",
   "status": "partial",
   "theorems": [
    "C48_metric_partial",
    "C48_large_refuted"
   ],
   "note": "The full statement is FALSE of the code: with coordinates above about 2.5e5 rounding errors exceed the fixed tolerance (C48_large_refuted). Proved for coordinates up to 16384."
  },
  {
   "property": "C49",
   "status": "proved",
   "theorems": [
    "C49_accurate",
    "C49_overflow_refuted"
   ],
   "note": "Coordinates up to 2^500; beyond, the squares may overflow (C49_overflow_refuted)."
  },
  {
   "property": "C50",
   "status": "partial",
   "theorems": [
    "C50_exactly",
    "C50_ends_well_partial",
    "C50_ends_well_doubles_partial",
    "C50_generated",
    "C50_refuted",
    "C50_christofides_threads_refuted"
   ],
   "note": "Proved for n >= 3, one thread, and release builds or the triangle inequality; for exact sums and for arbitrary doubles; without the build condition on the documents of the generator. C50_exactly decides, for integer distances and every number of cities, which single-threaded commands end well. The full statement is FALSE for documents of at most two cities, for debug builds of christofides without the triangle inequality, and for christofides with threads."
  },
  {
   "property": "C51",
   "status": "proved",
   "theorems": [
    "C51_circle_rounded",
    "values_exist"
   ],
   "note": "Arbitrary finite non-negative doubles; values_exist: every matrix of finite doubles has integer values in units of 2^-1074."
  },
  {
   "property": "C52",
   "status": "proved",
   "theorems": [
    "C52_naive_near_optimal",
    "C52_first_near_optimal"
   ],
   "note": "Exact optimality for arbitrary doubles is false (C44); this is the bound that does hold."
  },
  {
   "property": "C53",
   "status": "proved",
   "theorems": [
    "C53_prim_minimum",
    "C53_excluded_minimum"
   ],
   "note": "The comparison of single cells is exact, so the trees are truly minimal; only the reported weight is rounded."
  },
  {
   "property": "C54",
   "status": "proved",
   "theorems": [
    "C54_mst_bounds",
    "C54_one_tree_bounds",
    "C54_one_tree_mpi"
   ],
   "note": ""
  },
  {
   "property": "C55",
   "status": "proved",
   "theorems": [
    "C55_greedy_rounded",
    "C55_best_start_rounded",
    "C55_mpi_rounded"
   ],
   "note": ""
  },
  {
   "property": "C56",
   "status": "proved",
   "theorems": [
    "C56_tree_and_matching",
    "C56_three_halves_rounded",
    "C56_is_metric_slack",
    "C56_points"
   ],
   "note": "With a least perfect matching, as in C32; the matching heuristic of the code need not return one (C47)."
  },
  {
   "property": "C57",
   "status": "proved",
   "theorems": [
    "C57_matching",
    "C57_christofides",
    "C57_empty_panics"
   ],
   "note": "Processes of Spmd.v and MatchingMpi.v; assumes that the root gets as far as the matching (metric check, Prim)."
  },
  {
   "property": "C58",
   "status": "proved",
   "theorems": [
    "C58_points",
    "C58_accepted_iff_apart",
    "C58_arguments"
   ],
   "note": "The printed decimal form of a double is taken to be read back as the same double."
  },
  {
   "property": "C59",
   "status": "proved",
   "theorems": [
    "C59_runs",
    "C59_approx_with_bound",
    "C59_generated"
   ],
   "note": "The exact solvers V2-V6, threads and MPI: C62."
  },
  {
   "property": "C60",
   "status": "proved",
   "theorems": [
    "C60_log_factor",
    "C60_log_factor_f64",
    "C60_command_rounded",
    "C60_generated"
   ],
   "note": "exact, machine and arbitrary doubles with slack; the whole command and the generator's documents"
  },
  {
   "property": "C61",
   "status": "proved",
   "theorems": [
    "C61_in_reals",
    "C61_second_third",
    "C61_fourth_sixth",
    "C61_fifth_sixth",
    "C61_threaded",
    "C61_static",
    "C61_dynamic"
   ],
   "note": "C61_in_reals spells the bounds out in real numbers. Static MPI for every number of workers that leaves each a prefix, dynamic MPI from four cities on (C16, C17)."
  },
  {
   "property": "C62",
   "status": "proved",
   "theorems": [
    "C62_exact_runs",
    "C62_generated"
   ],
   "note": "V0 and V1 with one thread: C59."
  },
  {
   "property": "C63",
   "status": "proved",
   "theorems": [
    "C63_same_prefixes",
    "C63_three_cities",
    "C63_next_value",
    "C63_start_nodes",
    "C63_debug_overflow_panics",
    "C63_release_overflow_refuted"
   ],
   "note": "64-bit usize, i32 in nearest_neighbour_mpi. The last two show that the bound is sharp."
  },
  {
   "property": "C64",
   "status": "proved",
   "theorems": [
    "C64_reads",
    "C64_empty_is_error",
    "C64_before_root",
    "C64_field_once",
    "C64_mismatch",
    "C64_at_least_two"
   ],
   "note": "Over the model of quick_xml and serde in Xml.v (document types before the root and CDATA sections included; what is left out is in DESIGN section 3). Numbers of edges are read by an arbitrary function; C68 is about the doubles."
  },
  {
   "property": "C65",
   "status": "proved",
   "theorems": [
    "C65_commands",
    "C65_default",
    "C65_output_determines_lines"
   ],
   "note": "Over the model of clap in Args.v; ArgsSpec.v says what the ways to write a command are. Subcommand names and help are exact."
  },
  {
   "property": "C66",
   "status": "proved",
   "theorems": [
    "C66_generator_text",
    "C66_generator_arguments",
    "C66_generated_readable",
    "C66_exact",
    "C66_exact_pruned",
    "C66_exact_threads",
    "C66_exact_mpi",
    "C66_lower_bound",
    "C66_nearest_neighbour",
    "C66_christofides"
   ],
   "note": "The decimal form of doubles is that of F64Text.v (C68). V1 with MPI may panic at the end (C17); Christofides with one thread."
  },
  {
   "property": "C67",
   "status": "proved",
   "theorems": [
    "C67_cut_off",
    "C67_command",
    "C67_generator"
   ],
   "note": ""
  },
  {
   "property": "C68",
   "status": "proved",
   "theorems": [
    "C68_reads",
    "C68_round_trip",
    "C68_shortest",
    "C68_closest",
    "C68_characters"
   ],
   "note": "Over the model of Rust's FromStr and Display for f64 in F64Text.v."
  },
  {
   "property": "C69",
   "status": "proved",
   "theorems": [
    "C16_exactly",
    "C16_every_tour_covered",
    "C16_exactly_f64",
    "C16_idle_worker_panics",
    "C17_one_worker_returns",
    "C17_may_return",
    "C17_may_panic",
    "C17_too_many_workers_panic",
    "C45_mpi_v0_exactly",
    "C45_mpi_v1_exactly"
   ],
   "note": "Exact integer costs; the panics in every ordered arithmetic (doubles included), the static half also on doubles that add exactly."
  },
  {
   "property": "C70",
   "status": "proved",
   "theorems": [
    "C70_edges",
    "C70_degree_sum",
    "C70_out_of_range_panics",
    "C70_weight",
    "C70_weight_f64"
   ],
   "note": "Weights for exact integers and for doubles that add exactly."
  },
  {
   "property": "C71",
   "status": "proved",
   "theorems": [
    "C71_endings",
    "C50_exactly"
   ],
   "note": "Exact integer costs; Christofides with threads is left out (it may hang, C28). The 'surely' and 'possibly' of V1 with MPI range over the schedules of the processes."
  },
  {
   "property": "C72",
   "status": "proved",
   "theorems": [
    "C72_text",
    "C72_refused",
    "C72_accepted",
    "C72_other_encoding",
    "C72_cut_character",
    "C72_never_bytes",
    "C72_parts"
   ],
   "note": ""
  },
  {
   "property": "C73",
   "status": "proved",
   "theorems": [
    "C73_bounds",
    "C73_bounds_f64",
    "C73_commands",
    "C73_commands_f64",
    "C73_factor_two_reached",
    "C73_no_factor_without_triangle"
   ],
   "note": ""
  },
  {
   "property": "C74",
   "status": "proved",
   "theorems": [
    "C74_tight",
    "C74_tight_f64",
    "C74_no_better_factor"
   ],
   "note": "V6 in C74_tight under the condition that no two prefixes have the same hash (C08)."
  },
  {
   "property": "C75",
   "status": "proved",
   "theorems": [
    "C75_linear",
    "C75_linear_f64",
    "C75_no_factor"
   ],
   "note": "The random numbers are existentially chosen; C47_half_n_partial is the matching upper bound."
  },
  {
   "property": "C76",
   "status": "proved",
   "theorems": [
    "C76_cost",
    "C76_cost_error",
    "C76_cost_exact",
    "C76_cost_refuted",
    "C76_document",
    "C76_benchmark",
    "C76_walky",
    "C76_exact"
   ],
   "note": "The random points and np.linalg.norm are replaced by arbitrary distances; C76_cost_refuted is the part of the statement that says that costs can change."
  },
  {
   "property": "C77",
   "status": "proved",
   "theorems": [
    "C77_same_program",
    "C77_naive",
    "C77_first",
    "C77_first_empty",
    "C77_second",
    "C77_third",
    "C77_fourth",
    "C77_no_pruning",
    "C77_no_pruning_f64"
   ],
   "note": "Work is counted in calls of get; the other steps of the solvers and the time they take are not modelled."
  },
  {
   "property": "C78",
   "status": "proved",
   "theorems": [
    "C78_any_order",
    "C78_trace",
    "C78_unique",
    "C78_bad_start",
    "C78_same",
    "C78_same_f64",
    "C78_printed",
    "C78_matrix",
    "C78_script",
    "C78_order_refuted"
   ],
   "note": "The printed trace and the text of the Rust code are not modelled, only the graph it stands for; C78_order_refuted is the part of the statement about other orders of iteration."
  },
  {
   "property": "C79",
   "status": "proved",
   "theorems": [
    "C79_circles",
    "C79_enumeration",
    "C79_searches",
    "C79_trees",
    "C79_namatrix",
    "C79_types",
    "C79_types_f64",
    "C79_one_vertex_refuted",
    "C79_one_vertex_nn_refuted",
    "C79_vecmatrix_metric_refuted",
    "C79_vecmatrix_metric_f64_refuted"
   ],
   "note": "The theorems named _refuted are the exceptions that the statement lists."
  },
  {
   "property": "C80",
   "status": "proved",
   "theorems": [
    "C80_same_program",
    "C80_metric_yes",
    "C80_metric_no",
    "C80_one_start",
    "C80_starts",
    "C80_prim",
    "C80_prim_every_row",
    "C80_prim_square",
    "C80_prim_quadratic",
    "C80_prim_quadratic_f64"
   ],
   "note": "Work is counted in cells of the matrix and entries of the vector looked at; the search for the first vertex that is not excluded and the building of the result are not counted."
  },
  {
   "property": "C81",
   "status": "proved",
   "theorems": [
    "C81_exact",
    "C81_exact_f64",
    "C81_trees",
    "C81_trees_f64",
    "C81_nearest",
    "C81_nearest_f64",
    "C81_all_starts",
    "C81_nearest_ties_refuted",
    "C81_fourth_refuted"
   ],
   "note": "The theorems named _refuted are the exceptions that the statement lists."
  },
  {
   "property": "C82",
   "status": "proved",
   "theorems": [
    "C82_exact",
    "C82_trees",
    "C82_nearest",
    "C82_christofides",
    "C82_bounds",
    "C82_nearest_mpi",
    "C82_zero_refuted",
    "C82_exact_f64",
    "C82_metric_small",
    "C82_metric_refuted"
   ],
   "note": "C82_metric_refuted is the exception that the statement lists; C82_zero_refuted shows that the factor must be positive. C82_bounds takes the costs even because the weight of a graph is half of a sum and the exact numbers of the model are integers."
  },
  {
   "property": "C83",
   "status": "proved",
   "theorems": [
    "C83_exact",
    "C83_exact_f64",
    "C83_one_tree_bound",
    "C83_one_tree_bound_f64",
    "C83_trees",
    "C83_trees_f64",
    "C83_nearest",
    "C83_nearest_f64",
    "C83_nearest_charge_refuted"
   ],
   "note": "C83_nearest_charge_refuted is the exception that the statement lists."
  },
  {
   "property": "C84",
   "status": "proved",
   "theorems": [
    "C84_exact",
    "C84_exact_f64",
    "C84_trees",
    "C84_trees_f64",
    "C84_nearest_refuted"
   ],
   "note": "C84_nearest_refuted is the exception that the statement lists."
  },
  {
   "property": "C85",
   "status": "proved",
   "theorems": [
    "C85_exact",
    "C85_exact_f64",
    "C85_no_triangle_refuted",
    "C85_tree_refuted"
   ],
   "note": "The theorems named _refuted are the exceptions that the statement lists."
  },
  {
   "property": "C86",
   "status": "proved",
   "theorems": [
    "C86_exact",
    "C86_exact_f64",
    "C86_circle",
    "C86_circle_f64",
    "C86_first_refuted",
    "C86_heuristics_refuted"
   ],
   "note": "The theorems named _refuted are the exceptions that the statement lists."
  },
  {
   "property": "C87",
   "status": "proved",
   "theorems": [
    "C87_get",
    "C87_long_rows",
    "C87_copy",
    "C87_naive",
    "C87_searches",
    "C87_first_refuted",
    "C87_agree_refuted"
   ],
   "note": "C87_first_refuted is the exception and C87_agree_refuted the difference that the statement names."
  }
 ]
}