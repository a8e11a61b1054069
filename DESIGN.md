# Formal model of walky in Rocq (Coq 8.16.1)

Contents: 1 shape of the model, 2 what is modelled, 3 what is not modelled and what is
assumed, 4 trusted base, 5 the properties: how each is modelled and proved, 6 what the
proofs found in the code, 7 testing the theorems.

## 1. Shape of the model

* **Numbers.** Costs are `f64` in the code. The model is written once, over an
  abstract arithmetic `Num` (`Num.v`: carrier, `+`, `-`, `*0.5`, `<`, `<=`, `==`,
  `0`, infinity, `-1.0`). Two instances are built:
  * `EZ`: exact integers extended with `+inf`, `-inf`, `NaN` and the IEEE rules
    for the special values (`inf - inf = NaN`, every comparison with NaN false).
    Every finite double is an integer multiple of 2^-1074, so `EZ` is "f64 without
    rounding", in units of 2^-1075.
  * `B64`: IEEE binary64 with round-to-nearest-even, from Flocq.

  Structural theorems (what is visited, never panics, schedule independence) are
  proved for *every* `Num`, often under a law saying that comparisons form a total
  preorder (`NumOrd`), which `EZ` and `B64` satisfy. Optimality theorems are proved for
  every `Num` with an exact embedding of the integers up to some bound (record `Exact`);
  `EZ` has one for every bound, `B64` for bound 2^53 in any unit 2^e, so these theorems
  hold for doubles whenever the costs are integers (times a power of two) small enough
  for exact sums. For arbitrary doubles C51-C56 and C59-C62 bound the effect of
  rounding: `Units.v` writes every finite double as an integer number of units
  2^-1074, so that the notions of `Spec.v` speak about true values. Where rounding
  breaks a property a `_refuted` theorem shows it.
* **Panics and loops.** A function that can panic (index out of bounds, `unwrap`,
  `assert!`, `expect`) returns `res A = Ok a | Panic | OutOfFuel`. Unbounded
  loops and recursions take fuel; theorems show `Ok`, which excludes both bad outcomes.
  Where the code really diverges (C28), `OutOfFuel` is shown for every amount of fuel.
* **Randomness and schedules** are arguments (the numbers drawn, an order of loop
  bodies, a reduction tree, an interleaving) over which the theorems quantify.
* **Threads.** `rayon` reductions take an arbitrary reduction tree (`Par.v`); parallel
  loops with locks are arbitrary interleavings of atomic steps (`Par.v`, `Threaded.v`);
  parallel loops that write through raw pointers are interleavings of single loads and
  stores (`Mem.v`).
* **MPI** programs are transition systems: one state per process plus channels
  (`Mpi.v`), or programs of sends and receives under an interleaving semantics with any
  amount of buffering (`Spmd.v`, `MatchingMpi.v`). Theorems quantify over all reachable
  states.

Specification notions (tour, tour cost, spanning tree, perfect matching, metric, ...)
live in `Spec.v` and `TourLength.v` and do not mention the model; `TextSpec.v` and `ArgsSpec.v` use only its data types. Theorems are in the files `Prop*.v`, each
with `Print Assumptions` under it and an `Example ..._applies` that meets its hypotheses.
Files `*Proofs.v`, `*Exact.v` (except `Exact.v`), `*Facts.v`, `Dfs.v`, `Greedy.v`,
`BoundsProofs.v`, `Coverage.v`, `CoverageAll.v`, `TightProofs.v`, `WorstProofs.v`, `DriftSolvers.v`, `DriftParallel.v`, `FourthDrift.v`, `MpiStatic.v`, `MpiDynamic.v`, `NumPos.v` hold proofs only.

## 2. What is modelled

Every definition carries a comment with the lines it models and its simplifications.

| source | model | what |
|--------|-------|------|
| src/parser.rs | `Data.v`, `Precond.v` | graph, `add_undirected_edge`, weights, degree, `parse_from_xml` after XML decoding, `do_conditions_hold` |
| src/preconditions.rs | `Precond.v` | `is_fully_connected`, `is_multi_edge`, `is_undirected` |
| src/datastructures/*.rs | `Data.v`, `Points.v` | both matrices, conversions, `evaluate_path`, `evaluate_circle`, `is_metric`, `from_points`, `par_from_points` |
| src/mst.rs | `Mst.v`, `MstPar.v` | Prim with all three containers, `prim` |
| src/one_tree.rs | `OneTree.v` | `one_tree`, the sequential, parallel and MPI maximum |
| src/solvers/approximate/nearest_neighbour.rs | `Nn.v` | all functions |
| src/solvers/approximate/matching.rs | `Matching.v`, `MatchingMpi.v` | all functions; the MPI part once as a function and once process by process (C57 proves that they agree) |
| src/solvers/approximate/christofides.rs | `Christofides.v` | all functions |
| src/solvers/mod.rs | `Christofides.v` | `is_hamiltonian_cycle` |
| src/solvers/exact.rs | `Exact.v`, `Threaded.v`, `Mpi.v` | V0-V6, `next_permutation`, digits and chunks, threaded, static MPI and dynamic MPI solvers |
| src/parser.rs, the text | `Text.v`, `Xml.v` | the fields with their serde attributes, cutting a text into tags, the tree of elements, its decoding |
| src/lib.rs, `read_to_string` | `Utf8.v` | the bytes of a file become a text exactly if they are UTF-8 |
| src/cli.rs, src/lib.rs | `Cli.v` | commands, drivers, printed lines, how the program ends |
| src/cli.rs, src/main.rs | `Args.v` | subcommands, options, values, the text of the printed lines, the whole program |
| utils/gen_matrix_fast/src/main.rs | `Generator.v`, `GeneratorText.v` | points, distances, document, the text written |
| the work splits again, on machine integers | `Machine.v` | `split_up_b_ary_number_into_n_chunks`, `convert_to_b_ary_digits`, `get_next_value`, the ranges of `nearest_neighbour_mpi` |
| the decimal form of doubles | `F64Text.v` | Rust's `FromStr` and `Display` for `f64`: correctly rounded reading, shortest digits, no exponent |
| utils/tsp_logic.py, simple_gen.py, benchmark_gen.py | `PyGen.v` | `create_matrix` for arbitrary distances, `convert_to_xml`, `principal_minor`, Python's `{:.15e}`, the documents printed or written |
| src/solvers/exact.rs V0-V4 with the calls of `get` | `Work.v` | the functions of `Exact.v` and `evaluate_path`, `evaluate_circle` once more, in a monad that keeps the arguments of the calls of `get`; C77_same_program proves that without the log they are the same functions |
| src/mst.rs:61-167, 278-306, src/solvers/approximate/nearest_neighbour.rs:26-98, src/datastructures/mod.rs:53-70 with what they look at | `Work2.v` | `is_metric`, the sequential nearest neighbour and the single-threaded Prim once more, in the same monad; the second read of a cell that is the best so far is not traced, an entry of Prim's vector is traced as a cell of row n + 1; C80_same_program proves that without the trace they are the same functions |
| utils/NN_approx.py, `convert_to_rust_code` in utils/tsp_logic.py | `PyNn.v` | the tour and its length (not the trace), for an arbitrary order of iteration of sets; the matrix for arbitrary random numbers; the graph that the printed code stands for (not its text) |
| rand 0.8 `shuffle` | `Rand.v` | Fisher-Yates with arbitrary draws |

## 3. What is not modelled, and what is assumed

Not modelled:

* document type declarations that are empty or stand inside of the root element
  (errors in the model); comments after the document type, between two white spaces, which are an error in
  the model as in `quick_xml` 0.28 and about which no theorem says anything;
* errors of the file system other than a file that cannot be read;
* which message clap prints when it does not run a command (help, version, error);
* the text of doubles inside C64, C65 and C67: there the decimal form is an arbitrary function;
  C66 uses the one of `F64Text.v`;
* timing, the `benchmarking` feature, stderr, memory and stack exhaustion;
* overflow of `usize`: naturals are unbounded in the model. For the arithmetic where an
  overflow is conceivable at all, the work splits of the exact solvers and of
  `nearest_neighbour_mpi`, `Machine.v` repeats the functions on 64-bit and 32-bit machine
  integers and C63 proves that they agree; elsewhere the code only counts or indexes
  objects that are in memory. Conversions of MPI counts to `i32` are left out. Where debug
  and release builds differ by a subtraction below zero (`take_one` in
  `Christofides.v`), the model panics, and the theorems show it does not happen;
* `panic_on_invaid_mode` with modes outside 0-2, `Deref` boilerplate, the test modules;
* of the Python scripts in utils/: the random points and `np.linalg.norm` (the distances are arbitrary), the
  solution by python_tsp, the text of `convert_to_rust_code`, the trace of NN_approx.py, the folder that benchmark_gen.py creates; the scripts in benchmarks/ and the shell scripts.

Assumed about libraries:

* MPI delivers messages between two processes in order and does not lose them;
  `all_reduce` combines all contributions in some order and association (arbitrary per
  rank); broadcasts hand every process the root's value; a second `mpi::initialize`
  returns `None`. When a process panics, the model of the command records the panic for
  the run. The exact solvers' sends are modelled as buffered; the channel theorems (C15,
  C17) show that at most one message is ever under way in a direction.
* rayon runs every task exactly once, tasks of one loop interleave arbitrarily, and a
  reduction combines adjacent results.
* Shared memory is sequentially consistent at the level of single loads and stores. A
  data race is undefined behaviour in Rust; the refutation for the parallel Christofides
  (C28) uses the mildest reading, a lost update.
* the crate `priority_queue`: `push_increase` keeps the larger priority, `peek` returns
  some entry of maximal priority; ties are broken arbitrarily (an argument).
* `quick_xml` 0.28 with serde's derive (`Xml.v`), clap 4 (`Args.v`) and Rust's `FromStr` and
  `Display` for `usize` (`Text.v`) and `f64` (`F64Text.v`) are modelled from their
  documentation, not from their source. C68 shows that the model of the last does what the
  documentation promises. walky's part is the declaration of the types.
* FxHash is modelled bit by bit on the prefix (`fx_hash`, 64-bit words); C08 is proved for
  arbitrary hash functions.
* `f64::powi(2)` is one rounded multiplication, `sqrt` is correctly rounded, `sum()`
  starts from +0.0 (newer Rust versions start from -0.0, which differs only for the empty
  sum and compares equal).

## 4. Trusted base

* Coq 8.16.1's kernel (with `vm_compute`), and the reading of the code above.
* No axioms of our own, no functors or module types, no switched-off checks, nothing
  admitted. Libraries used: the standard library and Flocq (which adds no axioms).
* `Print Assumptions` of the theorems in MANIFEST.json:
  * closed under the global context (no axioms), 274 theorems:
    C01_naive_optimal, C01_naive_optimal_generic, C01_single_vertex,
    C02_first_optimal_partial, C02_two_vertices_refuted, C02_asymmetric_refuted,
    C02_empty_panics, C03_second_optimal, C03_second_optimal_generic, C04_third_optimal,
    C04_third_optimal_generic, C04_negative_refuted, C05_fourth_optimal_refuted,
    C05_fourth_tour_partial, C05_fourth_log_partial, C05_no_factor_refuted,
    C06_fifth_optimal_refuted, C07_fifth_factor_two, C08_sixth_equals_fifth,
    C08_sixth_tour_any_hash, C08_collision_refuted, C09_genuine_tours, C09_no_panic,
    C09_infinite_cost_refuted, C10_next_permutation, C10_iteration_reaches_all,
    C11_chunks_cover, C11_chunks_consecutive, C11_panics_iff, C11_exclusive_reading_refuted,
    C12_successor, C12_overflow_iff, C12_conversion_inverse, C12_iteration_visits_all,
    C13_schedules_agree, C13_minimum_of_prefixes, C13_every_schedule_finishes,
    C14_threaded_factor_two, C14_every_tour_covered, C14_two_vertices_refuted,
    C15_no_deadlock, C15_no_worker_panics, C15_no_infinite_run, C15_channels,
    C15_least_reported_wins, C15_all_ranks_agree, C15_negative_costs_refuted,
    C16_static_factor_two, C16_exactly, C16_every_tour_covered, C16_idle_worker_panics,
    C16_more_workers_refuted, C16_two_vertices_refuted, C16_single_process_refuted,
    C16_too_many_workers_panic, C17_no_deadlock, C17_no_worker_panics, C17_no_infinite_run,
    C17_channels, C17_each_prefix_once, C17_least_reported_wins, C17_all_ranks_agree,
    C17_dynamic_factor_two, C17_one_worker_returns, C17_may_return, C17_may_panic,
    C17_too_many_workers_panic, C17_late_worker_refuted, C17_three_vertices_refuted,
    C17_single_process_refuted, C18_spanning_tree, C18_nothing_left, C19_minimum_weight,
    C20_multi_is_single, C20_prim_modes_agree, C21_same_weight, C22_mst_below_every_tour,
    C23_one_tree_value, C23_small, C24_par_is_seq, C24_mpi_maximum, C24_mpi_is_seq,
    C24_too_many_processes, C25_greedy_tour, C25_exact, C25_bad_start, C26_best_start,
    C26_par_is_seq, C26_exact, C26_all_starts, C26_bad_count, C27_all_ranks_agree,
    C27_mpi_is_seq, C27_too_many_processes, C27_operator_commutative,
    C27_operator_associative, C28_sequential, C28_mpi, C28_mpi_single_vertex_panics,
    C28_parallel_partial, C28_parallel_refuted, C29_eulerian, C29_walk_reaches_all,
    C30_listed_partial, C30_perfect_partial, C30_refuted, C31_step_partial,
    C31_cost_partial, C31_refuted, C32_three_halves, C32_tree_and_matching,
    C33_parallel_multigraph, C33_matching_repeats_no_pair, C33_repeated_pair_races,
    C34_parallel_is_sequential, C34_mpi_cheapest, C34_mpi_empty_panics, C35_namatrix,
    C35_accepted, C35_copy, C35_out_of_range_panics, C36_sum_of_steps, C36_no_step,
    C36_circle_is_tour_cost, C36_rotation, C36_reversal, C37_what_is_tested,
    C37_decides_triangle, C37_asymmetric_refuted, C38_from_points, C38_par_from_points,
    C39_decides_cycles, C39_accepts, C39_open_path_refuted,
    C40_accepts_exactly_complete_partial, C40_self_loop_refuted, C41_checked,
    C41_error_or_panic, C42_ordered, C42_documents, C42_approx_with_bound,
    C44_naive_rounded_partial, C45_unreadable, C45_not_accepted, C45_single_partial,
    C45_threads_partial, C45_mpi_v0_partial, C45_mpi_v0_exactly, C45_mpi_v1_partial,
    C45_mpi_v1_exactly, C45_threads_ignore_algorithm_refuted, C45_threads_not_v0_refuted,
    C45_mpi_unimplemented_refuted, C45_mpi_alone_refuted, C45_bound_after_mpi_refuted,
    C45_queue_ignores_parallelism_refuted, C46_priority_queue_edges_refuted, C47_refuted,
    C47_two_odd_partial, C47_quarter_partial, C47_half_n_partial, C50_exactly,
    C50_ends_well_partial, C50_refuted, C50_christofides_threads_refuted, C57_matching,
    C57_christofides, C57_empty_panics, C60_log_factor, C63_same_prefixes, C63_three_cities,
    C63_next_value, C63_start_nodes, C63_debug_overflow_panics,
    C63_release_overflow_refuted, C64_reads, C64_empty_is_error, C64_before_root,
    C64_field_once, C64_mismatch, C64_at_least_two, C65_commands, C65_default,
    C65_output_determines_lines, C67_cut_off, C67_command, C70_edges, C70_degree_sum,
    C70_out_of_range_panics, C70_weight, C71_endings, C72_text, C72_refused, C72_accepted,
    C72_other_encoding, C72_cut_character, C72_never_bytes, C72_parts, C73_bounds,
    C73_commands, C73_factor_two_reached, C73_no_factor_without_triangle, C74_tight,
    C74_no_better_factor, C75_linear, C75_no_factor, C77_same_program, C77_naive, C77_first,
    C77_first_empty, C77_second, C77_third, C77_fourth, C77_no_pruning, C78_any_order,
    C78_trace, C78_unique, C78_bad_start, C78_same, C78_printed, C78_matrix,
    C78_order_refuted, C79_circles, C79_enumeration, C79_searches, C79_trees, C79_namatrix,
    C79_types, C79_one_vertex_nn_refuted, C79_vecmatrix_metric_refuted, C80_same_program,
    C80_metric_yes, C80_metric_no, C80_one_start, C80_starts, C80_prim, C80_prim_every_row,
    C80_prim_square, C80_prim_quadratic, C81_exact, C81_trees, C81_nearest, C81_all_starts,
    C81_nearest_ties_refuted, C81_fourth_refuted, C82_exact, C82_trees, C82_nearest,
    C82_christofides, C82_nearest_mpi, C82_bounds, C82_zero_refuted, C83_exact,
    C83_one_tree_bound, C83_trees, C83_nearest, C83_nearest_charge_refuted, C84_exact,
    C84_trees, C84_nearest_refuted, C85_exact, C85_no_triangle_refuted, C85_tree_refuted,
    C86_exact, C86_circle, C86_first_refuted, C86_heuristics_refuted, C87_get,
    C87_long_rows, C87_copy, C87_naive, C87_searches, C87_first_refuted, C87_agree_refuted
  * the standard library's `ClassicalDedekindReals.sig_forall_dec`, `ClassicalDedekindReals.sig_not_dec`, `Classical_Prop.classic`, `FunctionalExtensionality.functional_extensionality_dep`, because they mention Flocq's doubles, whose correctness is stated with the real numbers, 125 theorems:
    C01_naive_optimal_f64, C02_first_optimal_f64_partial, C03_second_optimal_f64,
    C04_third_optimal_f64, C05_fourth_log_f64_partial, C05_fourth_rounded_partial,
    C05_fourth_command_partial, C05_fourth_generated_partial, C07_fifth_factor_two_f64,
    C14_threaded_factor_two_f64, C16_static_factor_two_f64, C16_exactly_f64,
    C19_minimum_weight_f64, C21_same_weight_f64, C22_mst_below_every_tour_f64,
    C23_one_tree_value_f64, C24_mpi_is_seq_f64, C25_exact_f64, C26_exact_f64, C27_exact_f64,
    C31_cost_f64_partial, C32_three_halves_f64, C36_circle_f64, C37_accepts_f64,
    C37_decides_triangle_f64, C38_f64, C38_infinite_refuted, C42_ordered_f64,
    C42_approx_with_bound_f64, C44_naive_rounded_refuted, C44_second_rounded_refuted,
    C44_third_rounded_refuted, C44_reported_cost_refuted, C47_command_rounded_partial,
    C47_generated_partial, C48_metric_partial, C48_large_refuted, C49_accurate,
    C49_overflow_refuted, C50_ends_well_doubles_partial, C50_generated, C51_circle_rounded,
    values_exist, C52_naive_near_optimal, C52_first_near_optimal, C53_prim_minimum,
    C53_excluded_minimum, C54_mst_bounds, C54_one_tree_bounds, C54_one_tree_mpi,
    C55_greedy_rounded, C55_best_start_rounded, C55_mpi_rounded, C56_tree_and_matching,
    C56_three_halves_rounded, C56_is_metric_slack, C56_points, C58_points,
    C58_accepted_iff_apart, C58_arguments, C59_runs, C59_approx_with_bound, C59_generated,
    C60_log_factor_f64, C60_command_rounded, C60_generated, C61_second_third,
    C61_fourth_sixth, C61_fifth_sixth, C61_threaded, C61_static, C61_dynamic,
    C62_exact_runs, C62_generated, C66_generator_text, C66_generator_arguments,
    C66_generated_readable, C66_exact, C66_exact_pruned, C66_exact_threads, C66_exact_mpi,
    C66_lower_bound, C66_nearest_neighbour, C66_christofides, C67_generator, C68_reads,
    C68_round_trip, C68_shortest, C68_closest, C68_characters, C70_weight_f64,
    C73_bounds_f64, C73_commands_f64, C74_tight_f64, C75_linear_f64, C76_cost,
    C76_cost_error, C76_cost_exact, C76_cost_refuted, C76_document, C76_benchmark,
    C76_walky, C76_exact, C77_no_pruning_f64, C78_same_f64, C78_script, C79_types_f64,
    C79_one_vertex_refuted, C79_vecmatrix_metric_f64_refuted, C80_prim_quadratic_f64,
    C81_exact_f64, C81_trees_f64, C81_nearest_f64, C82_exact_f64, C82_metric_small,
    C82_metric_refuted, C83_exact_f64, C83_one_tree_bound_f64, C83_trees_f64,
    C83_nearest_f64, C84_exact_f64, C84_trees_f64, C85_exact_f64, C86_exact_f64,
    C86_circle_f64
  * the first and the last of these four only: C61_in_reals

The checker of the build also lists axioms of loaded library modules (`coqchk`), among them
ssreflect's `Under_rel` and the abstract module of the real numbers; no theorem rests on
others than those above.

## 5. The properties

Status and theorem names are in MANIFEST.json; "false" means that the full statement is
false of the code, a `_refuted` theorem exhibits an input, and the rest is proved.

| id | model | proof |
|----|-------|-------|
| C01, C02, C10 | `next_permutation` and the two enumeration loops | successor lemma for the lexicographic order, loop invariant "everything up to the current permutation was evaluated"; rotation / reversal argument for the starting permutation. C02 is false for n = 2, proved for n >= 3 |
| C03, C04, C09 | the recursive solvers with their mutable running cost, fuel = n+1 | each solver is an instance of one generic depth-first search (`Dfs.v`); induction on fuel with the invariant "running cost = cost of prefix, result is a genuine tour or the initial value"; a pruning lemma per bound |
| C05 | `fourth_rec`, `compute_nn_of_remaining_vertices` | false (computed counterexample). With the triangle inequality: the estimate is at most (ceil(log2 (n-2))/2 + 1/2) times the completion of any tour (halving argument of `RatioProofs.v`), hence a logarithmic factor; without it no factor at all (a tour of cost 0 missed). Also on arbitrary doubles up to slack and drift, as a command, and on generated documents |
| C06, C07 | `fifth_rec` | C06 false; C07: the spanning tree of the rest is at most the completion, and twice the bound is what is pruned |
| C08 | cache as association list, hash as a parameter | every prefix is looked up once; induction over the search order |
| C11, C12 | chunk arithmetic and digit counter on `list nat` | positional evaluation, induction on digits |
| C13, C14 | threads as sequences of atomic merges, arbitrary interleaving | permutation invariance of the min-merge, counting of skipped keys against the 2n representations of a tour |
| C15-C17 | transition systems of root and workers | inductive invariants, progress lemma, decreasing measure. The chunks drop keys; that no tour is lost follows from comparing the keys of the windows next to city 0 modulo the chunk size (`CoverageAll.v`). C16, C17 false for some worlds |
| C18-C22 | Prim, generic in the container as in the source, three containers | loop invariant; contraction argument for minimality (`Greedy.v`) |
| C46 | priority-queue container | false: the returned edges need not be the weighed ones |
| C23, C24 | `one_tree` and the three maximum computations | tour minus vertex is a path, hence spanning tree |
| C25-C27 | greedy loop, shuffles, reduction | loop invariant; algebra of the reduction operator |
| C28, C29, C33 | multigraph, `find_cycle`, Hierholzer, shortcut | loop invariants on degree parity and remaining edges. C28 false with threads |
| C30, C31, C34 | matching improvement with shuffles as data | C30/C31 false because of one branch of `optimize_two_matching`; true part proved |
| C32 | full pipeline with any least perfect matching | parity + shortcut + spanning tree bound + two matchings from the optimal tour |
| C47 | pipeline with the code's matching | false; proved: 3/2 for two odd vertices, 1 + k/4 for k odd vertices and a perfect matching, n/2 always (also as a command on arbitrary doubles and generated documents) |
| C35-C41 | graphs, matrices, checks | direct; C40 false for graphs with self loops, proved otherwise |
| C38, C48, C49 | distances of points in doubles | Flocq error bounds; C48 false for large coordinates |
| C42 | whole commands | from the above |
| C43 | `B64` embedding law | Flocq |
| C44 | V0 for any total preorder arithmetic | false: refutations for V0, V2, V3 by computation |
| C45, C50 | drivers, printed lines, endings | case analysis over all combinations; both false in part; C50 also for arbitrary doubles (from C59, C60, C62); `PropSmall.v` decides every single-threaded command on documents of every size, the smallest by computation on symbolic matrices |
| C51-C55 | arbitrary doubles, `Units.v`, `RoundProofs.v` | relative error of a sum of k terms as a rational factor; comparisons of cells are exact, so trees and greedy tours are truly minimal / greedy |
| C56 | Christofides with the triangle inequality up to a slack | slack per shortcut (`SlackProofs.v`), points by C48/C49 |
| C57 | programs of sends and receives | processes that name their partners are deterministic (`SpmdProofs.v`): one run to the end implies all runs end alike, under any buffering |
| C58 | generator | error of `20r - 10`, distance zero exactly for coinciding points |
| C59 | commands on arbitrary doubles | C51-C55 lifted through `run` |
| C60 | nearest neighbour with the triangle inequality | each of the k dearest steps costs at most a tour over k vertices; halving, no sorting (`RatioProofs.v`), with slack |
| C61 | V2-V6, threads and MPI on arbitrary doubles | every level of the search works on its own copy of the running cost, so at most (n-1)^2+1 roundings lie behind a reported cost, each at most (n+1)W 2^-53 (`DriftProofs.v`); invariants of the search, threads and MPI with this drift |
| C62 | the exact command on arbitrary doubles | C61 lifted through `run` |
| C63 | work splits on machine integers | the functions once more with overflow checks or wrapping; equality with the unbounded versions |
| C64 | lexer, tree builder and decoder of `Xml.v`; `TextSpec.v` says which texts denote an instance | the events of a written element rebuild the element it stands for (`XmlProofs.v`); each part of the decoder accepts exactly what `TextSpec.v` describes (`DecodeProofs.v`) |
| C65 | `Args.v`; `ArgsSpec.v` says how a command may be written | soundness and completeness of the parser by induction on the arguments; every line is determined by its text |
| C66 | generator text, reader, `run`, printed text | C58, C59, C60, C62, C47 through C64 and C65; `PipelineProofs.v` turns relative errors into true lengths (`TourLength.v`) |
| C67 | prefixes of a written element | if a prefix were read, appending the rest could not change the result; but the last character `>` is needed (`XmlProofs.v`: `element_more`, `element_last`) |
| C68 | the algorithms for reading and printing of `F64Text.v`, on all texts and all doubles | the grammar by induction on the text; reading is Flocq's rounded division; the search for digits finds the first length at which a decimal neighbour rounds to the double |
| C69 | static chunks by the numbers their prefixes write; particular runs of the dynamic solver | any n+2 consecutive numbers from 1 to n^3-2 contain one with three different digits (`MpiChunks.v`); a solo run extended by a late worker, a run in which everybody is served before anyone reports, counting of the prefixes (`MpiDynRuns.v`) |
| C70 | `build`: insertions folded over a graph without edges | invariant of the fold; double counting of the edge ends (`PropGraph.v`) |
| C71 | `needs`, `chances`: conditions on cities, threads, processes and build, command by command | the theorems on the solvers (C14, C16, C17, C24, C27, C28, C50) for large documents, computation or an invariant of the message passing for the small ones (`PropEndings.v`) |
| C72 | `valid_utf8`, the byte table of `from_utf8`, against `utf8_text` in `TextSpec.v` | a well formed character is consumed whole and the rest decides, by induction on the text; the commands by the definition of the program (`PropUtf8.v`) |
| C73 | the three bounds and the command `lower-bound` | a 1-tree without one edge at its city spans; a tour grows with a connected edge set, each new city next to its neighbour, at most twice its weight (`tree_tour`, by induction on the cities); the reached factor by distances over a hub, where every tour costs the same, for every n; no factor by two sides of 2 and 3 cities with a parameter (`BoundsProofs.v`, `PropBounds.v`) |
| C74 | V5, V6 and the command `exact` | the state after the first descent of the recursion is the identity tour, and every later tour is cut off by a dear prefix or not cheaper (`fifth_keeps_first`, by induction on the recursion, for any distances); instance: neighbours in the numbering are at distance 2 but for the last six, the others at 1, for every n; the bound of a prefix by counting the edges of a spanning tree (`tree_at_least`) (`TightProofs.v`, `PropTight.v`) |
| C75 | `christofides` in its three modes and the command `approx christofides` | instance: two stars with 6k and 2k leaves, centres 8k apart; the least spanning tree is unique, by counting edges of weight one, and has only odd degrees; the pairs 01, 23, ... are stable under the improvement because the three pairings of each four cost the same; leaves have degree two in the multigraph, so the shortcut keeps the dear pairs (`kept_edge`) (`WorstProofs.v`, `PropWorst.v`) |
| C76 | `PyGen.v` on arbitrary distances, composed with the reader (`Xml.v`), the precondition checks, the matrix and the program (`Cli.v`, `Args.v`) | `sixteen` computes the closest decimal of sixteen digits (as in C68 with `floor10`); half a unit of the sixteenth digit plus the rounding of the reader is at most 1e-15; the text is the spelling of a `piece` (C64), so that it is read as the matrix; relative errors add up along a tour; C59 for the runs; refutations by computation |
| C77 | `Work.v` on any matrix with readable cells; `WorkSpec.v` says what a tour's cells and the size of a search tree are | the loops of V0 and V1 by `next_permutation_spec` and the number of permutations (`perms_NoDup`); the searches by one lemma on loops over the vertices not in the prefix, with an invariant for zero costs under which nothing is cut; the sizes by induction |
| C78 | `PyNn.v` beside `Nn.v` | the loop of the script by induction with an arbitrary property of a step, used with "nearest" and with "nearest, ties to the smallest number" (`PyNnSpec.v`), which determines the tour; the scan of the library is `min` on the unvisited vertices (`scan_none`), so both loops run in step (`loop_same`); the length by C25's `single_exact` |
| C79 | `Data.v`, `Exact.v`, `Mst.v`, `OneTree.v`, `Nn.v` | the same program on two matrices, step by step (`DiagProofs.v`): the paths have no repetition, so two neighbours differ; for Prim the two containers differ only in entries that are used up (`like`), which is kept by every operation; the documents by C35, the metric by C37 |
| C80 | `Work2.v` on any square matrix (any readable matrix for `is_metric`); `Work2Spec.v` says what the triples and the cells of a greedy walk are | the check by a general lemma on loops that stop; the walk by induction on the rounds with the set of the visited vertices; Prim by an invariant of the vector (its shape, the used entries only grow), and for the lower bound that after the first row every unused entry is finite |
| C81 | the models of the solvers on `w` and on `renamed w f` (`RenameSpec.v`) | tours, spanning trees and 1-trees of the two instances correspond with equal costs (`RenameProofs.v`), so that the characterisations of C01-C04, C19 and C23 give the same value; greedy tours without ties are unique |
| C82 | the models of the solvers on a matrix and on the same matrix in another unit (`ScaleSpec.v`) | two runs of each program on numbers related by a relation that the arithmetic and the comparisons respect stay related (`ScaleProofs.v`, and `ScaleChristofides.v` with the parallel loops under the same schedule, and `ScaleMpi.v` with the reductions, for any two instances of `Num`); multiplication by k > 0 is such a relation on exact arithmetic; for doubles the characterisations C01-C04 and the bound on the tolerance |
| C83 | the models of the solvers on `w` and on `charged w out into` or `surcharged w d` (`ChargeSpec.v`) | every tour pays the same charges and every tree of a given size the same surcharge (`ChargeProofs.v`), so that the characterisations of C01-C04, C19, C23 and C25 relate the two values |
| C84 | the models of the solvers on two instances `w`, `w'` with `raised_by_at_most n w w' d` (`StableSpec.v`) | every tour, tree and 1-tree is dearer by at most d per edge (`StableProofs.v`), hence so is the least one; characterisations of C01-C04, C19 and C23 |
| C85 | the models of the solvers on `w` and on `without w v` (`DropSpec.v`) | cutting a vertex out of a tour, and putting one in after any vertex (`DropProofs.v`), with the characterisations of C01-C04 |
| C86 | the models of the solvers on an instance and on the one with every way turned round (`ReverseSpec.v`) | a tour walked backwards costs the same in the turned instance (`ReverseProofs.v`), so that the optima agree by C01, C03 and C04; witnesses for V1, the heuristic, the tree and the triangle test |
| C87 | `vm_get`, `vm_adj` and `na_from_adj` of `Data.v` on lists of rows of any lengths (`RaggedSpec.v` says which cells there are) | the square on the left has the same readable cells (`RaggedProofs.v`), then C79; a loop with a step that always panics panics; for V0 a permutation other than the sorted one that uses the missing cell, which the enumeration reaches; for V2 to V4 the prefix of the two vertices, which is built before any pruning |

No property of properties.jsonl is "not applicable".

## 6. What the proofs found in the code

* V1 never evaluates the only tour of two vertices and reports infinity (C02). V0 skips the
  sorted tour; harmless in exact arithmetic, visible with rounding (C44).
* V4's bound overestimates: optimal tours are cut (C05). V5, V6 and the workers of the
  parallel solvers count the tree twice: only a factor of two is left (C06, C14, C16, C17).
* V2's result is empty if an infinite edge is met (C09); `+=`/`-=` drift makes V2-V6 report
  costs that are not those of their tours (C44), though never far off (C61).
* The static MPI solver fails for one process, for two vertices and when some worker gets no
  prefix (C16); the dynamic one when a worker starts late (C17). C69 says exactly for how many
  processes: on three cities V0 works with 1-3 and 14-21 workers only. V1 with MPI never works
  below four cities (C71).
* With two cities and one thread the threaded solver prints infinity (C14, C71).
* The priority-queue Prim returns edges other than those it weighs (C46).
* One branch of `optimize_two_matching` returns a pair twice, so the matching need not be
  perfect and may get dearer (C30, C31), Christofides exceeds 3/2 (C47), and its parallel
  multigraph has a data race after which the Eulerian search may never end (C28).
* `is_metric` has an absolute tolerance: rejected Euclidean instances (C48), everything accepted in a
  unit large enough (C82), and debug builds
  of Christofides panic on documents without the triangle inequality (C50).
* A self loop may stand for a missing edge (C40). `is_hamiltonian_cycle` accepts open paths
  (C39).
* With threads the algorithm given on the command line is ignored; with MPI V2-V6 panic;
  `approx` with MPI followed by the 1-tree bound initialises MPI twice and panics (C45).
* The generator writes a rejected document when two points coincide (C58), and one that cannot be
  decoded for less than two cities, because a vertex without edges has no `$value` (C64, C66).
* The Python generators write the costs with sixteen digits, one less than a double can need: the solver
  works with slightly different distances (0.1 + 0.2 becomes 0.3), and the largest doubles become infinity (C76).
* V2 reads the matrix more than three times as often as V1, which it is meant to improve upon, since it goes through
  all starting vertices again (C77).
* NN_approx.py prints integers as costs, which Rust does not accept in a field of type `f64`; and the code it prints
  leaves out edges of cost zero (C78).
* `VecMatrix::from(graph)` puts infinity on the diagonal, where `NAMatrix` and `from_dim` put zero: `is_metric` is false
  for every such matrix with two or more vertices, and V2-V4 find no tour when there is one vertex (C79).
* The cost that V4 finds depends on the order of the vertices in the document, and with equal distances so does the
  cost of the nearest-neighbour heuristic over all starts (C81).

## 7. Testing the theorems

seeded/LOG.jsonl lists edits of the model in a scratch copy, in the manner of realistic bugs:
which theorems failed, and what was tightened when none did. Edits that change no observable
behaviour are marked as such.
