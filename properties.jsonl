{"id": "C01", "title": "naive_solver is optimal", "statement": "For every complete cost matrix with n >= 2 vertices (symmetric or not, negative costs allowed) naive_solver returns a pair (c, p) where p visits every vertex exactly once, c is the cost of the closed tour p, and no closed tour is cheaper than c.", "quantifier": "all n >= 2, all n x n matrices of finite costs", "why_tests_cant": "infinitely many matrices and sizes; a test compares a handful of instances with a known optimum", "anchors": ["src/solvers/exact.rs: naive_solver, next_permutation", "src/datastructures/mod.rs: evaluate_circle"]}
{"id": "C02", "title": "first_improved_solver is optimal", "statement": "For every complete symmetric cost matrix first_improved_solver (solver V1) returns an optimal closed tour together with its cost.", "quantifier": "all n, all symmetric n x n matrices of finite costs", "why_tests_cant": "every matrix and every size; V1 only looks at tours starting at vertex 0 and never evaluates the identity permutation, which is invisible on most instances", "anchors": ["src/solvers/exact.rs: first_improved_solver, next_permutation"]}
{"id": "C03", "title": "second_improved_solver is optimal", "statement": "For every complete cost matrix with n >= 1 vertices second_improved_solver (V2) returns an optimal closed tour with its cost.", "quantifier": "all n >= 1, all n x n matrices of finite costs", "why_tests_cant": "the depth-first search keeps one mutable running cost; its restoration must be right on every branch of every instance", "anchors": ["src/solvers/exact.rs: second_improved_solver, _second_improved_solver_rec"]}
{"id": "C04", "title": "third_improved_solver is optimal", "statement": "For every complete cost matrix with nonnegative costs and n >= 1, third_improved_solver (V3) returns an optimal closed tour with its cost, although it prunes.", "quantifier": "all n >= 1, all nonnegative matrices", "why_tests_cant": "a wrong pruning test only loses the optimum on rare instances", "anchors": ["src/solvers/exact.rs: third_improved_solver, _third_improved_solver_rec"]}
{"id": "C05", "title": "fourth_improved_solver is optimal", "statement": "For every complete symmetric nonnegative cost matrix fourth_improved_solver (V4, nearest-neighbour lower bound) returns an optimal closed tour with its cost.", "quantifier": "all n >= 1, all symmetric nonnegative matrices", "why_tests_cant": "the bound is wrong only on particular weight patterns with at least six vertices; the repository's tests do not contain one", "anchors": ["src/solvers/exact.rs: fourth_improved_solver, compute_nn_of_remaining_vertices"]}
{"id": "C06", "title": "fifth_improved_solver is optimal", "statement": "For every complete symmetric nonnegative cost matrix fifth_improved_solver (V5, MST lower bound) returns an optimal closed tour with its cost.", "quantifier": "all n >= 1, all symmetric nonnegative matrices", "why_tests_cant": "the bound uses twice the MST weight; whether this loses the optimum depends on the instance", "anchors": ["src/solvers/exact.rs: fifth_improved_solver, _fifth_improved_solver_rec", "src/parser.rs: directed_edge_weight"]}
{"id": "C07", "title": "MST-pruned solvers are within a factor two of the optimum", "statement": "On every complete symmetric nonnegative matrix with n >= 1 the tour returned by V5 costs at most twice the cost of any closed tour.", "quantifier": "all n >= 1, all symmetric nonnegative matrices, all tours", "why_tests_cant": "an approximation ratio is a universally quantified inequality", "anchors": ["src/solvers/exact.rs: _fifth_improved_solver_rec", "src/mst.rs: prim_with_excluded_node_single_threaded"]}
{"id": "C08", "title": "sixth_improved_solver agrees with fifth_improved_solver", "statement": "V6 (V5 plus a cache keyed by a 64-bit hash of the prefix) returns exactly the result of V5 whenever no two different prefixes of distinct vertices hash alike, and returns a genuine tour with its genuine cost even when they collide.", "quantifier": "all matrices, all hash functions", "why_tests_cant": "collisions cannot be provoked by a unit test; the claim ranges over all hash functions", "anchors": ["src/solvers/exact.rs: sixth_improved_solver, _sixth_improved_solver_rec"]}
{"id": "C09", "title": "Exact solvers return genuine tours with genuine costs", "statement": "Whatever finite costs the complete matrix holds and n >= 1, each of V2..V6 returns without panicking a path that is a permutation of 0..n-1, and the reported cost is exactly the cost of that closed tour.", "quantifier": "all n >= 1, all matrices of finite costs, each solver", "why_tests_cant": "ranges over all instances; pruning solvers could return the empty initial path", "anchors": ["src/solvers/exact.rs: all solvers"]}
{"id": "C10", "title": "next_permutation enumerates permutations in lexicographic order", "statement": "next_permutation either rearranges the slice to the lexicographically next arrangement (nothing lies strictly between) and returns true, or leaves it unchanged and returns false, exactly when no larger arrangement exists. Iterating it from the sorted slice visits every permutation.", "quantifier": "all slices of naturals, all lengths", "why_tests_cant": "factorially many states per length and all lengths", "anchors": ["src/solvers/exact.rs: next_permutation"]}
{"id": "C11", "title": "The work split covers the key space without overlap", "statement": "Splitting basis^digits keys in n chunks gives, read with inclusive ends, consecutive disjoint ranges that cover every key except the last (total mod n); the code panics exactly when the total is not greater than n.", "quantifier": "all bases, digit counts, chunk counts and keys", "why_tests_cant": "arithmetic over all parameters", "anchors": ["src/solvers/exact.rs: split_up_b_ary_number_into_n_chunks, convert_to_b_ary_digits"]}
{"id": "C12", "title": "The digit counter is the successor function", "statement": "get_next_value increments a base-b number by one in place, reports overflow exactly at the all-(b-1) number, and convert_to_b_ary_digits is the inverse of digit evaluation, so that iterating visits every key after the start exactly once.", "quantifier": "all bases, lengths and numbers", "why_tests_cant": "all bases, lengths and carries", "anchors": ["src/solvers/exact.rs: get_next_value, convert_to_b_ary_digits"]}
{"id": "C13", "title": "threaded_solver is schedule independent", "statement": "For every number of threads below n and every interleaving of the threads' lock acquisitions the multithreaded solver ends with the same cost: the minimum over the prefixes it examined; the path returned has exactly this cost.", "quantifier": "all matrices, thread counts and interleavings", "why_tests_cant": "thread schedules cannot be enumerated by tests", "anchors": ["src/solvers/exact.rs: threaded_solver_generic"]}
{"id": "C14", "title": "threaded_solver examines every tour up to rotation and direction", "statement": "For every symmetric nonnegative complete matrix with n >= 3 vertices, t < n threads and every schedule, the multithreaded solver returns a tour costing at most twice any closed tour (the MST pruning factor), although each thread skips the first and last key of its chunk.", "quantifier": "all n >= 3, thread counts t < n, matrices and schedules", "why_tests_cant": "the skipped keys matter only for particular (n, t) and optimum positions", "anchors": ["src/solvers/exact.rs: threaded_solver_generic, split_up_b_ary_number_into_n_chunks, get_next_value"]}
{"id": "C15", "title": "static_mpi_solver: agreement and no deadlock", "statement": "For every nonnegative matrix with n >= 1 vertices, fewer than n^3 workers and every message interleaving of root and workers, the static MPI solver cannot deadlock and terminates; whenever it returns, all processes leave with the same cost, which is the least cost any worker reported, and with the path of a worker having this cost.", "quantifier": "all world sizes, all per-worker result sequences, all interleavings", "why_tests_cant": "MPI schedules cannot be enumerated by tests", "anchors": ["src/solvers/exact.rs: static_mpi_solver_generic, static_mpi_solver_generic_root, static_mpi_solver_generic_nonroot"]}
{"id": "C16", "title": "static_mpi_solver is correct", "statement": "For every symmetric nonnegative complete matrix, world size and interleaving the static MPI solver returns a genuine tour costing at most twice the optimum.", "quantifier": "all matrices, world sizes, interleavings", "why_tests_cant": "see above", "anchors": ["src/solvers/exact.rs: static_mpi_solver_generic, _mpi_improved_solver_rec"]}
{"id": "C17", "title": "dynamic_mpi_solver: agreement and no deadlock", "statement": "For every nonnegative matrix with n >= 4 vertices, at least two processes and every interleaving of requests the dynamic MPI solver hands every triple of pairwise distinct vertices from [1,2,3] onwards (in numerical order) to exactly one worker exactly once, cannot deadlock, and all processes leave with the least cost reported and a path of this cost.", "quantifier": "all world sizes, all interleavings", "why_tests_cant": "MPI schedules cannot be enumerated by tests", "anchors": ["src/solvers/exact.rs: dynamic_mpi_solver_generic, dynamic_mpi_solver_root, dynamic_mpi_solver_nonroot"]}
{"id": "C18", "title": "prim returns a spanning tree", "statement": "For every complete finite matrix and every set of excluded vertices that is not everything, prim_with_excluded_node returns an adjacency structure in which every edge is stored in both directions with its matrix cost, which touches only non-excluded vertices, and which connects all of them with exactly one edge less than there are vertices.", "quantifier": "all matrices, all exclusion sets", "why_tests_cant": "all graphs", "anchors": ["src/mst.rs: prim_with_excluded_node, prim", "src/parser.rs: Graph"]}
{"id": "C19", "title": "prim's tree has minimum weight", "statement": "The total weight of the tree returned by prim is at most the weight of any spanning tree (any connected edge set with n-1 edges) of the non-excluded vertices of a symmetric matrix.", "quantifier": "all symmetric matrices, all exclusion sets, all spanning trees", "why_tests_cant": "quantifies over all spanning trees of all graphs", "anchors": ["src/mst.rs: prim_with_excluded_node"]}
{"id": "C20", "title": "Single- and multi-threaded Prim agree", "statement": "The multi-threaded Prim, which reads the cost matrix through a raw pointer with a stride and writes the distance vector concurrently, returns the very same graph as the single-threaded one, whatever order the parallel loops run in and however the parallel minimum is associated.", "quantifier": "all matrices, all orders of the parallel loop bodies, all reduction trees", "why_tests_cant": "data-race and schedule dependence cannot be tested exhaustively", "anchors": ["src/mst.rs: prim, prim_with_excluded_node_multi_threaded, MultiThreadedVecWrapper"]}
{"id": "C21", "title": "Priority-queue Prim computes an MST weight", "statement": "For every symmetric matrix prim_with_excluded_node_priority_queue returns a graph with the same total edge weight as the vector based Prim, whichever of several equal minima the queue delivers.", "quantifier": "all symmetric matrices, all tie-breaking choices", "why_tests_cant": "tie-breaking and heap layout depend on the library", "anchors": ["src/mst.rs: prim_with_excluded_node_priority_queue"]}
{"id": "C22", "title": "The MST lower bound is a lower bound", "statement": "For every symmetric nonnegative complete matrix the weight of the tree printed by the mst lower-bound algorithm is at most the cost of every closed tour.", "quantifier": "all matrices, all tours", "why_tests_cant": "universally quantified inequality", "anchors": ["src/mst.rs: prim", "src/lib.rs: lower_bound_run"]}
{"id": "C23", "title": "The 1-tree lower bound is a lower bound", "statement": "For every symmetric complete matrix with n >= 3 one_tree_lower_bound is the greatest, over the special vertices, of the least 1-tree costs (two edges at the special vertex and a spanning tree of the others), and at most the cost of every closed tour. With two vertices it is infinity, with one it panics.", "quantifier": "all n, all symmetric matrices, all tours", "why_tests_cant": "universally quantified inequality", "anchors": ["src/one_tree.rs: one_tree, one_tree_lower_bound_seq"]}
{"id": "C24", "title": "Sequential, parallel and MPI 1-tree bounds agree", "statement": "The rayon version returns the sequential value for every reduction tree, and the MPI version's root returns it for every world size not exceeding the number of vertices, whatever order and association MPI uses; the other ranks return infinity. With more ranks than vertices it panics.", "quantifier": "all matrices, reduction trees, world sizes", "why_tests_cant": "schedules and world sizes", "anchors": ["src/one_tree.rs: one_tree_lower_bound_par, one_tree_lower_bound_mpi"]}
{"id": "C25", "title": "single_nearest_neighbour is a greedy Hamiltonian tour", "statement": "For every complete matrix and start vertex < n the result starts at that vertex, visits every vertex once, every step goes to an unvisited vertex of least cost, and the reported cost is exactly what evaluate_circle computes for the path (bit for bit, in any arithmetic).", "quantifier": "all matrices, all start vertices, any arithmetic", "why_tests_cant": "all instances and start vertices", "anchors": ["src/solvers/approximate/nearest_neighbour.rs: single_nearest_neighbour"]}
{"id": "C26", "title": "n_nearest_neighbour is the best of its starts", "statement": "For 1 <= k <= n and every choice of k distinct random starts n_nearest_neighbour returns a genuine tour with its cost that is no worse than the greedy tour from any chosen start; with k = n (nearest_neighbour) the cost does not depend on the random order, and never lies below the optimum. It panics for k = 0 and k > n.", "quantifier": "all matrices, k, random choices", "why_tests_cant": "random choices cannot be enumerated", "anchors": ["src/solvers/approximate/nearest_neighbour.rs: n_nearest_neighbour, n_random_numbers, nearest_neighbour"]}
{"id": "C27", "title": "nearest_neighbour_mpi equals the sequential heuristic", "statement": "For every world size not exceeding n, every rank returns the same pair, its cost is the minimum over all start vertices (the sequential cost) and its path has that cost; the user-defined all-reduce operator is associative and commutative so the result does not depend on the reduction order.", "quantifier": "all matrices, world sizes, reduction orders", "why_tests_cant": "reduction order is chosen by the MPI library", "anchors": ["src/solvers/approximate/nearest_neighbour.rs: nearest_neighbour_mpi"]}
{"id": "C28", "title": "christofides returns a Hamiltonian cycle", "statement": "For every complete finite matrix with n >= 1 vertices, every outcome of the random matching, every schedule and each of the three modes, christofides returns a path starting at 0, ending at 0 and visiting every other vertex exactly once, and the reported cost is the sum of its edge costs.", "quantifier": "all matrices, random outcomes, schedules and modes", "why_tests_cant": "random outcomes, all instances", "anchors": ["src/solvers/approximate/christofides.rs: christofides_generic, eulerian_cycle_from_multigraph, hamiltonian_from_eulerian_cycle"]}
{"id": "C29", "title": "The Eulerian walk uses every edge exactly once", "statement": "For every connected multigraph with even degrees and a nonempty vertex set, eulerian_cycle_from_multigraph returns a closed walk starting at vertex 0 that traverses every edge of the multigraph exactly as often as it occurs.", "quantifier": "all even multigraphs", "why_tests_cant": "all graphs", "anchors": ["src/solvers/approximate/christofides.rs: eulerian_cycle_from_multigraph, find_cycle"]}
{"id": "C30", "title": "The approximate matching is a perfect matching of the odd vertices", "statement": "For every vertex list of even length and every random outcome approx_min_cost_matching pairs every listed vertex with exactly one other listed vertex.", "quantifier": "all matrices, vertex lists, random outcomes", "why_tests_cant": "random outcomes", "anchors": ["src/solvers/approximate/matching.rs: approx_min_cost_matching, improve_matching, optimize_two_matching"]}
{"id": "C31", "title": "Matching improvement never makes the matching dearer", "statement": "optimize_two_matching, and hence improve_matching, never increases the total cost of the matching, for every shuffle.", "quantifier": "all symmetric matrices, matchings, shuffles", "why_tests_cant": "random shuffles", "anchors": ["src/solvers/approximate/matching.rs: improve_matching, optimize_two_matching"]}
{"id": "C32", "title": "Christofides guarantee", "statement": "On every metric instance the tour computed by the Christofides pipeline costs at most 3/2 of the optimum when the matching it is given is a minimum-cost perfect matching of the odd vertices.", "quantifier": "all metric matrices, all minimum matchings, all tours", "why_tests_cant": "approximation ratio over all instances", "anchors": ["src/solvers/approximate/christofides.rs: christofides_generic"]}
{"id": "C33", "title": "Parallel multigraph construction equals the sequential one", "statement": "fill_multigraph_with_mst_and_matching writes through raw pointers in parallel mode; for matchings touching each vertex at most once the result equals the sequential one for every order of the parallel writes, all offsets lie inside the matrix, and each cell (i,j) counts the copies of edge {i,j}.", "quantifier": "all graphs, matchings, write orders", "why_tests_cant": "races cannot be tested exhaustively", "anchors": ["src/solvers/approximate/christofides.rs: fill_multigraph_with_mst_and_matching"]}
{"id": "C34", "title": "Parallel and MPI matching improvement", "statement": "par_improve_matching returns for every schedule what improve_matching returns with the same shuffles; mpi_improve_matching leaves every rank with the same matching, one that some rank produced and no rank undercut (an empty matching panics).", "quantifier": "all matrices, matchings, shuffles, schedules, world sizes", "why_tests_cant": "schedules", "anchors": ["src/solvers/approximate/matching.rs: par_improve_matching, mpi_improve_matching"]}
{"id": "C35", "title": "Graph to matrix conversion is faithful", "statement": "For every graph that passes the checks without self loops, entry (i,j) of the NAMatrix and of the VecMatrix built from it is the cost of the edge i-j for all i <> j; absent edges give infinity.", "quantifier": "all graphs", "why_tests_cant": "all graphs", "anchors": ["src/datastructures/nalgebra.rs: From<&Graph>", "src/datastructures/vecmatrix.rs: From<Graph>"]}
{"id": "C36", "title": "evaluate_circle measures the closed tour", "statement": "evaluate_circle is the sum of consecutive edges plus the closing edge; in exact arithmetic it is invariant under rotation of the path, and under reversal for symmetric matrices.", "quantifier": "all matrices and paths", "why_tests_cant": "all paths", "anchors": ["src/datastructures/mod.rs: evaluate_path, evaluate_circle"]}
{"id": "C37", "title": "is_metric decides the triangle inequality", "statement": "is_metric returns true iff for all i, j, k the matrix satisfies m(i,j) <= m(i,k) + m(k,j) up to the fixed tolerance (symmetric matrices).", "quantifier": "all symmetric matrices, all triples", "why_tests_cant": "all matrices", "anchors": ["src/datastructures/mod.rs: is_metric"]}
{"id": "C38", "title": "Point clouds give symmetric zero-diagonal matrices", "statement": "For points with finite coordinates from_points and par_from_points give the same matrix for every schedule; the matrix is symmetric with zero diagonal and entry (i,j) is the computed distance of points i and j, never NaN and never negative.", "quantifier": "all lists of points with finite coordinates, all schedules", "why_tests_cant": "all inputs, schedules", "anchors": ["src/datastructures/nalgebra.rs: from_points, par_from_points"]}
{"id": "C39", "title": "is_hamiltonian_cycle decides Hamiltonian cycles", "statement": "is_hamiltonian_cycle(path, n), called as its doc comment demands with a path that ends where it starts, returns true exactly when the path without its last entry visits every vertex below n exactly once.", "quantifier": "all paths and n", "why_tests_cant": "all paths", "anchors": ["src/solvers/mod.rs: is_hamiltonian_cycle"]}
{"id": "C40", "title": "Accepted instances are complete undirected graphs", "statement": "A graph that passes the preconditions has, for every two distinct vertices, exactly one edge in each direction, with equal costs.", "quantifier": "all graphs", "why_tests_cant": "all graphs", "anchors": ["src/preconditions.rs", "src/parser.rs: do_conditions_hold, parse_from_xml"]}
{"id": "C41", "title": "parse_from_xml never hands out an unchecked graph", "statement": "parse_from_xml returns a graph only if the preconditions hold; a syntactically valid document violating them panics instead of returning an error.", "quantifier": "all documents", "why_tests_cant": "all documents", "anchors": ["src/parser.rs: parse_from_xml"]}
{"id": "C42", "title": "Lower bounds, optimum and heuristics are ordered", "statement": "On every accepted loop-free instance with n >= 3 vertices and nonnegative costs: mst bound <= exact cost and 1-tree bound <= exact cost <= nearest-neighbour cost, and V0, V1, V2, V3 print the same cost.", "quantifier": "all instances", "why_tests_cant": "relation between different programs on all inputs", "anchors": ["src/lib.rs: exact_run, approx_run, lower_bound_run"]}
{"id": "C43", "title": "Results are valid for IEEE-754 doubles", "statement": "The optimality, tree and bound properties hold for binary64 arithmetic with round-to-nearest when all costs are integers (or integer multiples of one power of two) whose sums stay below 2^53 units.", "quantifier": "all such matrices", "why_tests_cant": "floating-point effects depend on particular values", "anchors": ["src/solvers/exact.rs", "src/mst.rs"]}
{"id": "C44", "title": "Optimality survives rounding for arbitrary doubles", "statement": "For arbitrary finite double costs each exact solver returns the path whose floating-point cost, as computed by evaluate_circle, is least.", "quantifier": "all matrices of finite doubles", "why_tests_cant": "rounding anomalies occur on rare inputs", "anchors": ["src/solvers/exact.rs"]}
{"id": "C45", "title": "The command line runs the requested algorithm", "statement": "For every combination of algorithm and parallelism flags the run function executes the solver named by the flags.", "quantifier": "all flag combinations", "why_tests_cant": "the combination table is finite, but what runs must match for every instance", "anchors": ["src/lib.rs: run, exact_run, approx_run, lower_bound_run", "src/cli.rs"]}
{"id": "C46", "title": "The priority-queue Prim returns the tree it weighs", "statement": "Every edge of the graph returned by prim_with_excluded_node_priority_queue carries the matrix cost of its two endpoints.", "quantifier": "all symmetric matrices, all tie-breaking choices", "why_tests_cant": "The upstream tests compare only small instances where the last added vertex happens to be the cheapest neighbour; the claim is about every matrix.", "anchors": ["src/mst.rs: VerticesInPriorityQueue::update_minimal_cost, prim_with_excluded_node_priority_queue"]}
{"id": "C47", "title": "Christofides as run stays within 3/2 of the optimum", "statement": "On every metric instance the tour returned by christofides, with the matching the code computes itself, costs at most 3/2 of the optimum (what christofides.rs's own test asserts on one instance).", "quantifier": "all metric matrices and random outcomes", "why_tests_cant": "The test tries one instance and one seed; the matching heuristic can be arbitrarily unlucky on others.", "anchors": ["src/solvers/approximate/christofides.rs: christofides, compute_approx_matching"]}
{"id": "C48", "title": "Point clouds are accepted as metric", "statement": "The matrix from_points builds from any list of points with finite coordinates passes is_metric.", "quantifier": "all lists of points with finite coordinates", "why_tests_cant": "whether rounding errors stay below the fixed tolerance depends on the coordinates; no finite set of point clouds covers them", "anchors": ["src/datastructures/nalgebra.rs: NAMatrix::from_points", "src/datastructures/mod.rs: AdjacencyMatrix::is_metric"]}
{"id": "C49", "title": "Point distances are accurate", "statement": "Each entry of the matrix built by from_points differs from the Euclidean distance of the two points by at most 5*2^-53 relative and 2^-534 absolute error, when no coordinate exceeds 2^500 in absolute value.", "quantifier": "all lists of points with finite coordinates up to 2^500", "why_tests_cant": "an error bound over all doubles, including cancellation, underflow and subnormal results", "anchors": ["src/datastructures/nalgebra.rs: NAMatrix::from_points"]}
{"id": "C50", "title": "A command on an accepted document ends properly", "statement": "For every accepted loop-free document with nonnegative distances, every exact, approx and lower-bound command run with one thread ends without panic or endless loop and prints a result.", "quantifier": "all accepted documents of all sizes, all single-threaded commands, all random choices", "why_tests_cant": "termination and absence of panics on all inputs and for all random choices", "anchors": ["src/lib.rs: run, exact_run, approx_run, lower_bound_run", "src/parser.rs: parse_from_xml", "src/cli.rs"]}
{"id": "C51", "title": "A computed tour cost is the true cost up to rounding", "statement": "For a matrix of arbitrary finite non-negative doubles, evaluate_circle on a list of k vertices returns a finite double between T(1-2^-53)^k and T(1+2^-53)^k, where T is the true (real-number) cost of the closed walk.", "quantifier": "all matrices whose cells are finite, non-negative doubles with n times each below 2^1021, all n, all vertex lists of length 2..n", "why_tests_cant": "rounding depends on every cell and on the order of the additions; the bound has to hold for every matrix of doubles, not only for those whose sums are exact", "anchors": ["src/datastructures/mod.rs: AdjacencyMatrix::evaluate_circle, evaluate_path"]}
{"id": "C52", "title": "Enumerating solvers are optimal up to rounding", "statement": "For a matrix of arbitrary finite non-negative doubles, naive_solver (n >= 2) and, if the matrix is symmetric and n >= 3, first_improved_solver return a tour whose true cost T satisfies T(1-u)^n <= T'(1+u)^n for every tour of true cost T' (u = 2^-53), and report T up to n roundings.", "quantifier": "all matrices whose cells are finite, non-negative doubles with n times each below 2^1021, all n, all tours", "why_tests_cant": "rounding depends on every cell and on the order of the additions; the bound has to hold for every matrix of doubles, not only for those whose sums are exact", "anchors": ["src/solvers/exact.rs: naive_solver, first_improved_solver"]}
{"id": "C53", "title": "Prim's tree is truly minimal for arbitrary doubles", "statement": "For a matrix of arbitrary finite non-negative doubles, prim returns in every computation mode a spanning tree; if the matrix is symmetric no spanning tree has a smaller true weight (rounding plays no part), and the reported undirected_edge_weight is the true weight up to 2n roundings (3n for the priority-queue version, which follows a tree of the same weight).", "quantifier": "all matrices whose cells are finite, non-negative doubles with n times each below 2^1021, all n, all modes, schedules and tie-breaks, all sets of excluded vertices", "why_tests_cant": "rounding depends on every cell and on the order of the additions; the bound has to hold for every matrix of doubles, not only for those whose sums are exact", "anchors": ["src/mst.rs: prim, prim_with_excluded_node_single_threaded, prim_with_excluded_node_priority_queue", "src/parser.rs: Graph::undirected_edge_weight"]}
{"id": "C54", "title": "The bounds are lower bounds up to rounding", "statement": "For a symmetric matrix of arbitrary finite non-negative doubles, the MST, mst-queue and 1-tree bounds (sequential, parallel, MPI) report, up to 2n (3n) roundings, a number that no tour's true cost is below.", "quantifier": "all matrices whose cells are finite, non-negative doubles with n times each below 2^1021, all n, symmetric; all tours, reduction trees and numbers of processes up to n", "why_tests_cant": "rounding depends on every cell and on the order of the additions; the bound has to hold for every matrix of doubles, not only for those whose sums are exact", "anchors": ["src/one_tree.rs: one_tree_lower_bound", "src/mst.rs: prim", "src/lib.rs: lower_bound_run"]}
{"id": "C55", "title": "Nearest neighbour is truly greedy for arbitrary doubles", "statement": "For a matrix of arbitrary finite non-negative doubles with n >= 2, nearest neighbour from a start visits at each step an unvisited vertex that is nearest in true distance, reports the true cost of the tour up to n roundings, and with several starts (also over MPI) returns a tour that is not dearer than that of any other start by more than these roundings.", "quantifier": "all matrices whose cells are finite, non-negative doubles with n times each below 2^1021, all n, all starts, random choices, modes, reduction orders", "why_tests_cant": "rounding depends on every cell and on the order of the additions; the bound has to hold for every matrix of doubles, not only for those whose sums are exact", "anchors": ["src/solvers/approximate/nearest_neighbour.rs"]}
{"id": "C56", "title": "The Christofides guarantee for arbitrary doubles and for points", "statement": "Let the matrix hold arbitrary finite non-negative doubles (moderate: the sums stay in range), symmetric, and satisfy the triangle inequality up to a slack d. If the matching procedure returns a perfect matching of least true cost of the odd vertices, twice the true cost of the tour of christofides is at most three times the true cost of any tour plus (n-2)*d, and the reported cost is the true cost up to n roundings. A symmetric matrix that passes is_metric has the slack of the tolerance 1e-10 plus two roundings. For matrices computed from points with coordinates up to 16384 the slack is 2^-32 and nothing else is assumed of the matrix.", "quantifier": "all matrices of finite non-negative doubles, all slacks, all finite point lists with coordinates within 16384, all modes, builds, schedules and random outcomes", "why_tests_cant": "The factor compares the result with every tour of every instance, and the effect of rounding and of the tolerance must be bounded for every matrix of doubles.", "anchors": ["src/solvers/approximate/christofides.rs:christofides_generic", "src/datastructures/mod.rs:is_metric", "src/datastructures/mod.rs:evaluate_circle", "src/computation_mode.rs"]}
{"id": "C57", "title": "Christofides with MPI ends on every process, whatever the timing", "statement": "When the command `approx christofides` runs with MPI on any number of processes, on a matrix of at least two vertices with finite costs, every process finishes: after the same number of steps in every order of the steps and with every delay of the messages, and without deadlock even if sends and broadcasts are not buffered. The helpers all receive the root's matching, number of tries and matrix, every broadcast finds buffers of the right length, the processes agree on the cheapest matching, the root ends with the solution of the algorithm and the others with nothing to print. If there is no edge to match (a single vertex), all processes panic.", "quantifier": "all matrices, all process counts, all random numbers of every process, all interleavings and message delays, all buffering behaviours of MPI", "why_tests_cant": "A test sees one interleaving with one MPI implementation; deadlock freedom and agreement must hold for all of them.", "anchors": ["src/solvers/approximate/matching.rs: bootstrap_mpi_matching_calc", "src/solvers/approximate/matching.rs: mpi_improve_matching", "src/lib.rs: approx_run", "src/solvers/approximate/christofides.rs: christofides_generic"]}
{"id": "C58", "title": "The generator's documents are accepted unless two points coincide", "statement": "For every n and every outcome of the random generator, gen_matrix_fast writes a document of n vertices whose points lie in the square from -10 to 10, each coordinate within 2^-47 of 20r-10 for its random number r. If no two points coincide the solver accepts the document, reads from it exactly the matrix that from_points builds from the points, and this matrix passes is_metric; if two points coincide their edge is missing and the solver rejects the document with a panic.", "quantifier": "all n, all sequences of random numbers", "why_tests_cant": "The outcome of the random generator cannot be enumerated, and coinciding points or distances that are lost by rounding are too rare to be met by a test.", "anchors": ["utils/gen_matrix_fast/src/main.rs: euclidean_distance, generate_xml_from_matrix, main", "src/parser.rs: parse_from_xml", "src/preconditions.rs", "src/datastructures/nalgebra.rs: from_points"]}
{"id": "C59", "title": "Command line runs on documents of arbitrary doubles", "statement": "For every accepted document with n >= 3 vertices whose costs are arbitrary finite non-negative doubles (their sums in range, the two directions equal): exact v0 and v1 print a tour whose true cost is least up to n roundings, with this cost up to n roundings; every lower-bound command, in every kind of parallelism that fits, ends properly and prints a number that is, up to 2n (mst-queue 3n) roundings, at most the true cost of every tour; approx nearest-neighbour prints on every process the same truly greedy tour with its cost up to n roundings; approx christofides prints the cost of a tour up to n roundings. Generated documents without coinciding points are of this kind.", "quantifier": "all accepted documents of finite non-negative doubles, all schedules, reduction orders, random numbers and builds; the number of MPI processes at most n", "why_tests_cant": "Rounding errors depend on the exact costs; a test sees a handful of matrices and one schedule.", "anchors": ["src/lib.rs: run, exact_run, approx_run, lower_bound_run", "src/parser.rs: parse_from_xml", "utils/gen_matrix_fast/src/main.rs: main"]}
{"id": "C60", "title": "Nearest-neighbour tours stay within a logarithmic factor", "statement": "On every instance with n >= 2 vertices that is symmetric and obeys the triangle inequality, the tour found by the nearest-neighbour heuristic - from any single start, from the best of any number of starts with or without threads, or with MPI - costs at most (ceil(log2 n)+1)/2 times every closed tour. If the costs are arbitrary doubles that obey the triangle inequality up to a slack d, the tour printed by the command obeys the factor against every tour plus n-1 times d; for documents of the generator d is at most 2^-32.", "quantifier": "all metric matrices (and documents), all starts, numbers of starts, schedules, reduction trees and process counts up to n", "why_tests_cant": "The factor compares with the optimum over all tours, for every instance size; tests look at single small instances.", "anchors": ["src/solvers/approximate/nearest_neighbour.rs: single_nearest_neighbour, n_nearest_neighbour, nearest_neighbour_mpi", "src/lib.rs: run, approx_run", "utils/gen_matrix_fast/src/main.rs: main"]}
{"id": "C61", "title": "With arbitrary doubles, the running cost of the pruned solvers drifts only by a bounded amount", "statement": "Let the costs be arbitrary finite doubles between 0 and W whose sums do not overflow, with n vertices. Every solver that keeps a running cost with additions and subtractions (V2-V6, the threaded solver, both MPI solvers) returns a tour, and the cost it reports is finite and differs from the true cost of that tour by at most D = (n+3)^2 (n+1) W 2^-53. The tour of V2 and V3 costs at most the cost of any tour plus 2D; if the costs are symmetric, the tour of V5 (and V6 without hash collisions), of the threaded solver and of the MPI solvers costs at most twice that of any tour plus 2D.", "quantifier": "all matrices of finite doubles (up to 208061 vertices), all hash functions, numbers of threads and processes, all schedules", "why_tests_cant": "The running cost is rounded again at every one of exponentially many steps of the search; a test sees a few matrices and cannot bound the drift for all of them and for every schedule.", "anchors": ["src/solvers/exact.rs: second_improved_solver, third_improved_solver, fourth_improved_solver, fifth_improved_solver, sixth_improved_solver, threaded_solver, static_mpi_solver, dynamic_mpi_solver"]}
{"id": "C62", "title": "The exact command on arbitrary doubles prints what its algorithm promises, up to the drift", "statement": "For every accepted document whose costs are finite non-negative doubles, `exact` with V2-V6 and one thread, with any algorithm and several threads, and with V0 or V1 and MPI ends and prints a tour and a number that is its true cost up to the drift D of C61: an optimal tour up to 2D for V2 and V3; at most twice the optimum plus 2D for V5, threads and MPI (V1 with MPI may panic instead). Documents of the generator without coinciding points qualify with W = 32.", "quantifier": "all accepted documents of doubles, all algorithms, worlds (threads, processes, schedules) and generator runs", "why_tests_cant": "Same as C61, for every document and every schedule of threads and processes.", "anchors": ["src/solvers/exact.rs: second_improved_solver, third_improved_solver, fourth_improved_solver, fifth_improved_solver, sixth_improved_solver, threaded_solver, static_mpi_solver, dynamic_mpi_solver", "src/lib.rs: run, exact_run", "utils/gen_matrix_fast/src/main.rs: main"]}
{"id": "C63", "title": "The work splits do not overflow on machine integers", "statement": "With 64-bit usize, in debug and in release builds, the exact solvers' split of the prefixes gives every worker exactly the prefixes it gets with unbounded integers whenever dim^prefix_length < 2^64, hence up to 2642245 cities for the prefixes of three cities; the counter of the dynamic solver never overflows; the 32-bit split of the start nodes in nearest_neighbour_mpi is the one with unbounded integers up to 2^31 - 1 cities and panics above.", "quantifier": "all builds, numbers of cities, prefix lengths, numbers of workers and workers", "why_tests_cant": "Overflow shows only at sizes no test runs, and in a release build it goes unnoticed.", "anchors": ["src/solvers/exact.rs: split_up_b_ary_number_into_n_chunks, convert_to_b_ary_digits, get_next_value", "src/solvers/approximate/nearest_neighbour.rs: nearest_neighbour_mpi"]}
{"id": "C64", "title": "Which texts are read as an instance, and as which", "statement": "A root element, written with any white space, comments and processing instructions before and inside it, perhaps after a document type, with either kind of quotes, escaped characters (named or by number), CDATA sections, empty-element tags, further attributes and further elements, is read as an instance exactly if each of the six elements name, source, description, doublePrecision, ignoredDigits and graph occurs exactly once in it, the numbers are decimal numbers below 2^32 (perhaps with leading zeros and a plus sign), the graph lists at least one vertex, every vertex at least one edge, and every edge has a cost attribute with a number and a text that is a number below 2^64; it is then read as exactly these fields and edges, in this order, and whatever follows the element is ignored. A text is what its parts say one after the other, CDATA sections literally and the rest with its references replaced part by part; white space at both ends of the text, outside of CDATA sections, does not count. References in text between the six elements must be valid too. Otherwise it is an error; so are text, a CDATA section or an end tag before the root element, an end tag of another name, a field that is missing or occurs twice, and an empty graph or vertex. So an accepted document has at least two cities.", "quantifier": "all written elements, all graphs, all placements of white space, comments, quotes, escapes, CDATA sections, document types, attributes and unrelated elements, all readers of decimal numbers", "why_tests_cant": "The set of texts that denote one instance is infinite, and a reader may drop or misplace an edge in any of them.", "anchors": ["src/parser.rs: parse_from_xml, TravellingSalesmanProblemInstance, Graph, Vertex, Edge"]}
{"id": "C65", "title": "The command line determines the command, and the output the lines", "statement": "The arguments are accepted exactly if they spell a command, in any order and in each of the spellings -pV, -p V, -p=V, --parallelism V, --parallelism=V (same for -l/--lower-bound), with single-threaded as default; they determine the command and the path, everything else ends with a usage message; and from the text on stdout the printed lines can be recovered.", "quantifier": "all lists of arguments, all builds (with or without MPI), all printed lines", "why_tests_cant": "The combinations of flags, spellings and orders are unbounded.", "anchors": ["src/cli.rs: Cli, Commands, ExactAlgorithm, ApproxAlgorithm, LowerBoundAlgorithm, Parallelism, main", "src/lib.rs: exact_run, approx_run, lower_bound_run"]}
{"id": "C66", "title": "From the generator to the printed tour", "statement": "If a file holds what the generator wrote for n cities with pairwise different points, then walky, called on it in any spelling of a command, ends well and prints exactly the promised lines: the exact solvers V0-V3 a tour that is shortest among the generated points, V5, threads and MPI one of at most twice that length, V4 and V6 a tour, nearest neighbour a tour with the logarithmic factor, Christofides the length of some tour, and a lower bound that is at most the length of every tour; all printed lengths are right; each up to an explicit error of (n+4)^3 / 2^46 in true Euclidean length. Called without a number, or with something that is not one below 2^64, the generator writes one line saying so, and every command refuses a file with that line.", "quantifier": "all random draws, numbers of cities up to 2^17, command lines, schedules, numbers of threads and processes", "why_tests_cant": "The composition of generator, text, reader, solver and printing must hold for every random draw and every schedule, and the lengths are real numbers.", "anchors": ["utils/gen_matrix_fast/src/main.rs: main, generate_xml_from_matrix", "src/parser.rs: parse_from_xml", "src/lib.rs: exact_run, approx_run, lower_bound_run", "src/cli.rs: main"]}
{"id": "C67", "title": "A document that was cut off is never taken for a whole one", "statement": "If a file holds only a proper prefix of a well-formed document, because the program writing it was stopped, every command reports an error and prints nothing; in particular for every prefix of the generator's output except the one that lacks only the final line feed.", "quantifier": "all well-formed documents, all points at which writing stopped, all commands", "why_tests_cant": "A crash may stop the writer after any byte of any document.", "anchors": ["src/parser.rs: parse_from_xml", "src/lib.rs: get_tsp_instance", "utils/gen_matrix_fast/src/main.rs: generate_xml_from_matrix"]}
{"id": "C68", "title": "Costs keep their value in text", "statement": "A text is read as a cost exactly if it is a decimal number (with optional sign, point and exponent) or one of the words for infinity and NaN; the cost is the double nearest to the number, ties to even, infinity beyond the range. Whatever double other than NaN is printed, reading the printed text gives the same double; no shorter number does, and no number of the same length that does is closer; the text has no exponent.", "quantifier": "all texts, all doubles", "why_tests_cant": "There are 2^64 doubles and infinitely many texts, and rounding errors show up only for rare ones.", "anchors": ["src/parser.rs: Edge", "src/lib.rs: exact_run, approx_run, lower_bound_run", "utils/gen_matrix_fast/src/main.rs: generate_xml_from_matrix"]}
{"id": "C69", "title": "How many MPI processes the exact solvers stand", "statement": "With n >= 3 cities, nonnegative symmetric distances and t = processes - 1 >= 1 workers the static MPI solver (V0) returns one genuine tour of at most twice the least cost, with its cost, on every process in every interleaving if t (n+4) <= n^3 or n^3 < 2t <= 2(n^3 - n - 3), and panics in every interleaving otherwise. With n >= 4 the dynamic one (V1) always returns for t = 1, has an interleaving that panics for every t >= 2, has one that returns for every t <= n (n-2)^2 - 1, and always panics for larger t. The same holds of the two commands.", "quantifier": "all matrices, all numbers of processes, all interleavings", "why_tests_cant": "The number of processes and the interleavings are unbounded; that a run may fail shows only in rare schedules.", "anchors": ["src/solvers/exact.rs: static_mpi_solver_generic, dynamic_mpi_solver_generic, dynamic_mpi_solver_root, dynamic_mpi_solver_nonroot, get_bounds", "src/lib.rs: exact_run"]}
{"id": "C70", "title": "Graphs built edge by edge", "statement": "Starting from n vertices without edges and adding any sequence of undirected edges: if every end is below n, each vertex then holds exactly the other ends and costs of its edges in the order of insertion (a loop twice), the degree of a vertex is the number of edge ends at it, the degrees add up to twice the number of edges, and the undirected weight is the sum of the costs, the directed weight twice that. An end that is not a vertex panics.", "quantifier": "all numbers of vertices, all sequences of edges (loops, multiple edges and negative costs included)", "why_tests_cant": "Sequences of insertions are unbounded.", "anchors": ["src/parser.rs: Graph::add_undirected_edge, Graph::vertex_degree, Graph::directed_edge_weight, Graph::undirected_edge_weight, Graph::num_vertices"]}
{"id": "C71", "title": "When each command ends well", "statement": "For every command except Christofides with threads, whether its runs on a document of n cities with nonnegative symmetric distances surely end well (no panic, no endless run, something printed, no infinite cost), possibly do, or never do is decided by n, the number of threads or processes and the build. One thread: V0 needs 2 cities, V1 3, the other exact versions and the approximations 1, the 1-tree bound 3, the spanning tree bounds none; Christofides in a debug build needs the triangle inequality. Threads: the same, except that every exact version needs 1 city, and 2 cities need 2 threads. p MPI processes: V0 needs 3 cities, p >= 2 and p-1 workers with (p-1)(n+4) <= n^3, or 2(p-1) > n^3 >= p+n+2; V1 needs 4 cities, surely ends well for p = 2, possibly for p <= n(n-2)^2 and never otherwise; V2 to V6 never; nearest neighbour needs p <= n, Christofides 2 cities, both without the option --lower-bound one-tree; the 1-tree bound needs 3 cities and p <= n.", "quantifier": "all commands but one, all documents (the empty one included), all numbers of threads and processes, all schedules and random numbers, both builds", "why_tests_cant": "The numbers of cities, threads and processes are unbounded, and the outcome of a run with threads or processes depends on the schedule.", "anchors": ["src/lib.rs: exact_run, approx_run, lower_bound_run, run", "src/solvers/exact.rs: threaded_solver_generic, static_mpi_solver_generic, dynamic_mpi_solver", "src/solvers/approximate/christofides.rs: christofides", "src/solvers/approximate/nearest_neighbour.rs: nearest_neighbour", "src/one_tree.rs: one_tree_lower_bound"]}
{"id": "C72", "title": "Files that are not text are refused", "statement": "A command runs on what a file says only if its bytes are a sequence of Unicode characters in UTF-8 (no surrogates, no overlong forms, nothing above 10FFFF). On a file that is missing, or whose bytes are not text, every command, in every process, prints nothing and ends with an error; this includes files with accented letters in Latin-1, files cut within a character, and files with a byte 192, 193 or 245 to 255.", "quantifier": "all byte sequences as files, all commands, all ways to write them, both builds, all numbers of processes", "why_tests_cant": "There are unboundedly many files, and the invalid sequences surround valid ones at any place.", "anchors": ["src/lib.rs: get_tsp_instance, exact_run, approx_run, lower_bound_run"]}
{"id": "C73", "title": "How far the lower bounds are from the optimum", "statement": "On symmetric nonnegative distances each of the bounds is one value, whatever the parallelism, the schedule, the number of processes and the ties: both spanning tree versions print the least weight of a spanning tree, the 1-tree version prints the greatest of the least weights of 1-trees at a city. The spanning tree bound is not above the 1-tree bound and this is not above any tour. With the triangle inequality some tour costs at most twice the spanning tree bound, so the optimum lies between a printed bound and its double. The factor two is reached: for every number of cities from four there is a metric document on which the bounds are n-2 and n-1 and every tour costs 2(n-2). Without the triangle inequality no factor holds, even on five cities.", "quantifier": "all documents with nonnegative distances on three or more cities, all three bounds, all kinds of parallelism, all schedules, process counts up to the number of cities, all choices of the queue; all factors for the negative part", "why_tests_cant": "A test compares the bound with the optimum on small instances; the factor, its being best possible and the equality of all versions concern all instances, sizes and schedules.", "anchors": ["src/mst.rs: prim, prim_with_excluded_node_priority_queue", "src/one_tree.rs: one_tree_lower_bound", "src/lib.rs: lower_bound_run"]}
{"id": "C74", "title": "The factor two of the pruned exact solvers is the best possible", "statement": "V5, and V6 when prefix hashes do not collide, may return a tour of nearly twice the optimal cost even on a metric: for every even number n of cities from eight on there is a metric with optimum n on which they return a tour of cost 2n-6, also with doubles. So for no factor below two does every printed tour of `exact v5` (one thread, or at least as many threads as cities with any version) cost at most that factor times the optimum; with C07 two is the exact factor.", "quantifier": "all even numbers of cities from eight on (with doubles, as long as six times n+1 is at most 2^53, in every unit 2^e); all factors a/b below two; all numbers of threads that are at least the number of cities", "why_tests_cant": "It concerns the limit over ever larger instances of an exponential search; a test can only run small ones, where the factor is far from two.", "anchors": ["src/solvers/exact.rs: fifth_improved_solver, sixth_improved_solver, threaded_solver", "src/lib.rs: exact_run"]}
{"id": "C75", "title": "Christofides as run guarantees no factor", "statement": "For no constant K does christofides, with the randomly started matching the code computes itself, always stay within K times the optimum, not even on metrics: for every n = 8k+2 there are a metric and random numbers of the shuffles with which it returns a tour of cost at least (n-6)/16 times that of another tour, sequentially, with threads or with MPI, under every schedule and for every number of processes, also with doubles. So for every K some document makes the command `approx christofides` print more than K times the cost of another tour. With C47, which gives n/2 as an upper bound, the worst case grows linearly with the number of cities.", "quantifier": "all numbers of cities 8k+2 and all K; all schedules, numbers of processes and builds; the random numbers are chosen (each shuffle leaves its list in order), the same for all processes", "why_tests_cant": "A test uses one seed and one small instance; the loss needs instances that grow and shuffles that a test will practically never draw.", "anchors": ["src/solvers/approximate/christofides.rs: christofides, compute_approx_matching", "src/solvers/approximate/matching.rs: approx_min_cost_matching, improve_matching, optimize_two_matching", "src/lib.rs: approx_run"]}
{"id": "C76", "title": "Documents of the Python generators: accepted, and within 1e-15 of the distances", "statement": "simple_gen.py with `xml` and a number n of points prints an ASCII document, whatever the (finite) distances of the points are. The solver refuses it if n is less than two, and otherwise accepts it (even if points are in the same place) and works with a symmetric matrix with zeros on the diagonal. Every cost is the decimal with sixteen digits that is closest to the distance (ties to even), read back correctly rounded: up to half of the largest double it differs from the distance by at most 1e-15 of it, and a distance with at most sixteen digits comes back as it was. In general it does not: 0.1 + 0.2 comes back as 0.3 and the largest double as infinity. So the length of every tour in the document is within 1e-15 of its length in the distances, and `exact v0` and `exact v1` print a tour that is shortest up to this and the roundings of the sums. benchmark_gen.py l r writes one document for each number of points from l to r, each what simple_gen.py prints for the first of these points.", "quantifier": "all numbers of points below 2^64 (2^50 for the runs of the solver), all finite doubles as distances (between 0 and 2^900 for lengths of tours), all texts after the document, all ranges l and r", "why_tests_cant": "Tests use random points, for which the sixteenth digit is rarely looked at; the claim is about the rounding of every double.", "anchors": ["utils/tsp_logic.py: create_matrix, convert_to_xml", "utils/simple_gen.py: main", "utils/benchmark_gen.py: principal_minor, main", "src/parser.rs: TravellingSalesmanProblemInstance::parse_from_xml_to_graph"]}
{"id": "C77", "title": "How much work the exact solvers do", "statement": "The solvers V0 to V4 accept every type with the trait AdjacencyMatrix, so a user can count their calls of get; the comments promise Theta(n * n!) for V0, Theta(n!) for V1 and O(n!) for V2. For every matrix whose cells can be read, whatever the costs are: V0 goes round every tour but the sorted one, each once and in lexicographic order, reads nothing else and makes n(n! - 1) calls; V1 does the same with the tours that start at vertex 0 and makes n! - n calls; V2 makes a fixed number of calls, between 3 n! and 4 n! from three vertices on. So V2, the improvement of V1, makes more than three times the calls of V1, and fewer than V0 only from four vertices on. V3 makes at most as many calls as V2 and V4 at most 6 n!, and these bounds are reached when all costs are zero, because a tour as dear as the best so far is not cut.", "quantifier": "all numbers of vertices (at least one, except for V0), all matrices with readable cells, all costs; zero costs for the last part", "why_tests_cant": "A test counts the calls for one matrix of one size; the promise is about all of them and about how the number grows.", "anchors": ["src/solvers/exact.rs: naive_solver, first_improved_solver, second_improved_solver, third_improved_solver, fourth_improved_solver, next_permutation, compute_nn_of_remaining_vertices", "src/datastructures/mod.rs: AdjacencyMatrix::get, evaluate_circle, evaluate_path"]}
{"id": "C78", "title": "The reference script for nearest neighbours and the library agree", "statement": "utils/NN_approx.py was written to make expected values for tests of the nearest-neighbour heuristic. For every matrix of integers and every start in range it prints a tour that starts there, goes each time to a nearest vertex not visited before, and its length. If Python's sets come in increasing order (as CPython does it for small numbers), ties go to the vertex with the smallest number; there is exactly one such tour, and single_nearest_neighbour returns the same tour and the same length, on doubles as long as the sums are exact. With another order the script may print another length. The graph in the printed Rust code has the costs of the script's matrix, except that an edge of cost zero is left out and becomes infinitely long; the script's own matrices are symmetric with costs from 1 to 9, so for every outcome of its random numbers what it prints for a start is what the library returns on the printed graph.", "quantifier": "all integer matrices (with W (n + 1) at most 2^53 on doubles), all numbers of vertices, all starts, all orders of iteration of sets, all random numbers", "why_tests_cant": "The tests were made with the script; a common mistake of both, such as how ties are broken, is invisible to them.", "anchors": ["utils/NN_approx.py: tsp_nearest_neighbour, generate_graph_matrix, main", "utils/tsp_logic.py: convert_to_rust_code", "src/solvers/approximate/nearest_neighbour.rs: single_nearest_neighbour", "src/datastructures/nalgebra.rs: From<Graph> for NAMatrix"]}
{"id": "C79", "title": "Only the costs between different vertices matter", "statement": "What stands on the diagonal of a matrix has no influence: if two matrices, of the same type or not, agree about every pair of different vertices, then evaluate_path and evaluate_circle of every list without repetition and the exact solvers V0 to V4 give the same results on both (for V2 to V4 from two vertices on), and so do, for NAMatrix, prim with any vertices left out, one_tree, the three 1-tree bounds, the nearest-neighbour heuristics and V5 and V6 (the last two groups from two vertices on). Hence the solvers return the same for VecMatrix::from(graph), which has infinity on the diagonal, and NAMatrix::from(&graph), which has zero. There are two exceptions: with one vertex V2 to V4 and nearest neighbour use the diagonal, so that they find no tour in a VecMatrix; and is_metric is false for every VecMatrix made from an accepted graph with two or more vertices.", "quantifier": "all matrices, all costs including NaN and infinities, all numbers of vertices, also matrices with cells that cannot be read (V0 to V4); the comparison of the types for all accepted graphs without loops and without costs equal to zero", "why_tests_cant": "A test has one diagonal, usually zero; that no cell of it ever decides anything is a statement about all matrices and about every comparison the algorithms make.", "anchors": ["src/datastructures/vecmatrix.rs: From<Graph> for VecMatrix", "src/datastructures/nalgebra.rs: From<&Graph> for NAMatrix", "src/datastructures/mod.rs: AdjacencyMatrix::is_metric, evaluate_circle", "src/solvers/exact.rs: naive_solver ... sixth_improved_solver", "src/mst.rs: prim_with_excluded_node_single_threaded", "src/one_tree.rs: one_tree", "src/solvers/approximate/nearest_neighbour.rs: single_nearest_neighbour"]}
{"id": "C80", "title": "How much work the polynomial algorithms do", "statement": "The comment on prim_with_excluded_node_single_threaded promises O(N^2). For every square matrix, all costs and all excluded vertices: it looks at whole rows of the matrix, at each at most once and never at that of an excluded vertex, hence at no more than n^2 cells, and goes over its n + 1 entries at most n + 1 times, in all no more than n^2 + (n + 1)^2 steps; with finite costs and no excluded vertex it is exactly n^2 cells. One start of the nearest-neighbour heuristic that returns a tour looks at n(n-1)/2 + 1 different cells whatever the costs are, namely from every vertex of the tour but the last those of the vertices not visited yet, and the closing one; k starts look at k times as many. is_metric, when it says yes, has read the three costs of all triples with i <= j, in n(n+1)(2n+1)/2 calls of get; when it says no it has stopped at a detour that is shorter than the direct way by more than the tolerance, and has read nothing after it.", "quantifier": "all matrices with readable cells, all costs including NaN and infinities, all numbers of vertices, all sets of excluded vertices, all starts and random draws", "why_tests_cant": "A test counts the steps for one matrix; a bound on the work is about all matrices and how it grows with their size.", "anchors": ["src/mst.rs: prim_with_excluded_node_single_threaded, prim_with_excluded_node, find_edge_with_minimal_cost, update_minimal_cost", "src/solvers/approximate/nearest_neighbour.rs: single_nearest_neighbour, n_nearest_neighbour", "src/datastructures/mod.rs: AdjacencyMatrix::is_metric"]}
{"id": "C81", "title": "The names of the vertices do not matter", "statement": "Writing the same instance with the vertices in another order changes no cost that should not depend on it: V0, V1, V2 and V3 find the same cost on both (under the conditions of C01 to C04), and the tour found for the renamed instance is with the old names an optimal tour; the minimum spanning tree, also with vertices left out, and the 1-tree bound have the same weight. If no vertex has two others equally near, the nearest-neighbour heuristic finds from each start the same tour and over all starts the same cost. With ties the nearest-neighbour cost over all starts can depend on the order, even with the triangle inequality, and so can the cost found by the solver V4.", "quantifier": "all instances with exact costs (integers, or doubles that add exactly), all permutations of the vertices, all sets of excluded vertices, all starts, random draws and both modes", "why_tests_cant": "A test compares two orders of one instance; the claim is about all orders of all instances.", "anchors": ["src/solvers/exact.rs: naive_solver, first_improved_solver, second_improved_solver, third_improved_solver, fourth_improved_solver", "src/mst.rs: prim_with_excluded_node_single_threaded", "src/one_tree.rs: one_tree_lower_bound", "src/solvers/approximate/nearest_neighbour.rs: single_nearest_neighbour, nearest_neighbour"]}
{"id": "C82", "title": "The unit of the costs does not matter, except to is_metric", "statement": "Multiplying all costs by the same positive number changes nothing but the costs: each of the exact solvers V0 to V6 returns the same tour with its cost multiplied (or panics on both), Prim's algorithm with any excluded vertices and one_tree return the same graph with every cost multiplied, evaluate_path and evaluate_circle are multiplied, and the nearest-neighbour heuristic returns the same tour from every start and, for the same random numbers and the same splitting of the work, over all starts, and Christofides' algorithm, sequential, parallel or with MPI, in debug and release builds, computes the same spanning tree, the same matching and the same tour for the same random numbers and schedules (or panics on both). The 1-tree lower bound of every mode is multiplied, and every MPI process of nearest neighbour returns the same tour as before. This needs no condition on the matrix: edges may be absent or negative and the matrix asymmetric. With doubles, changing the unit from 2^e to 2^e' leaves the least cost found by V0 to V3 the same. The exception is is_metric: its tolerance 1e-10 is fixed, so it accepts every matrix whose costs are at most 2^-34, and the same matrix can be rejected in one unit and accepted in another.", "quantifier": "all matrices over exact arithmetic with infinities and NaN, all positive factors, all excluded sets, special vertices, starts, random draws, modes, schedules and reduction trees; for doubles all instances of bounded multiples of a power of two", "why_tests_cant": "A test compares two units on one instance; that every comparison the programs make comes out the same in every unit is a statement about all instances and all factors.", "anchors": ["src/solvers/exact.rs: naive_solver, first_improved_solver, second_improved_solver, third_improved_solver, fourth_improved_solver, fifth_improved_solver, sixth_improved_solver", "src/mst.rs: prim_with_excluded_node_single_threaded", "src/one_tree.rs: one_tree", "src/solvers/approximate/nearest_neighbour.rs: single_nearest_neighbour, n_nearest_neighbour", "src/datastructures/mod.rs: evaluate_path, evaluate_circle, is_metric", "src/solvers/approximate/christofides.rs: christofides", "src/solvers/approximate/matching.rs: approx_min_cost_matching", "src/mst.rs: prim"]}
{"id": "C83", "title": "Charges at the vertices are paid by every tour alike", "statement": "If a charge is added to every cost of leaving and of entering each vertex, the solvers V0, V1, V2 and V3 (under the conditions of C01 to C04 on both instances) find a cost that is higher by exactly the sum of all charges, and the tour found with charges is optimal without them. The 1-tree bound computed with charges, less the charges, is a lower bound for the instance without charges. With a surcharge d on every edge, a minimum spanning tree of k vertices found by Prim's algorithm weighs d(k-1) more, the 1-tree bound is n d higher, and the nearest-neighbour heuristic takes the same tour if no vertex has two others equally near. With charges that differ from vertex to vertex, the nearest-neighbour heuristic can find a tour dearer by more than the charges.", "quantifier": "all instances with exact costs (integers, or doubles that add exactly), all charges of either sign, all surcharges, all excluded sets, all starts", "why_tests_cant": "The claim relates the outputs on infinitely many pairs of instances.", "anchors": ["src/solvers/exact.rs: naive_solver, first_improved_solver, second_improved_solver, third_improved_solver", "src/mst.rs: prim_with_excluded_node_single_threaded", "src/one_tree.rs: one_tree_lower_bound", "src/solvers/approximate/nearest_neighbour.rs: single_nearest_neighbour"]}
{"id": "C84", "title": "Small changes of the costs change the results little", "statement": "If no cost is raised by more than d (of either sign), the cost found by V0, V1, V2 and V3 (under the conditions of C01 to C04 on both instances) rises by at most n d, the weight of the minimum spanning tree of k vertices that Prim's algorithm returns rises by at most (k-1) d, and the 1-tree bound rises by at most n d. In particular lower costs never make them rise, and costs that are off by at most d give results that are off by at most n d. The nearest-neighbour heuristic has no such property: when distances shrink, what it finds over all starts can get dearer, even with the triangle inequality.", "quantifier": "all pairs of instances on the same vertices with exact costs (integers, or doubles that add exactly), all d, all excluded sets", "why_tests_cant": "The claim compares the outputs on infinitely many pairs of instances.", "anchors": ["src/solvers/exact.rs: naive_solver, first_improved_solver, second_improved_solver, third_improved_solver", "src/mst.rs: prim_with_excluded_node_single_threaded", "src/one_tree.rs: one_tree_lower_bound", "src/solvers/approximate/nearest_neighbour.rs: nearest_neighbour"]}
{"id": "C85", "title": "One city less never costs more, one city more costs at most the detour", "statement": "Let the costs satisfy the triangle inequality and let one vertex be left out, the later ones moving up. The cost found by V0, V1, V2 and V3 (under the conditions of C01 to C04) for the smaller instance is at most that for the larger one, and that for the larger one exceeds it by at most the way from any other vertex to the omitted one and back. Without the triangle inequality the smaller instance can be dearer; and the minimum spanning tree can become heavier when a vertex is excluded, even with it.", "quantifier": "all instances with exact costs (integers, or doubles that add exactly), symmetric or not, all omitted vertices, all vertices to insert at", "why_tests_cant": "The claim compares the outputs on infinitely many pairs of instances.", "anchors": ["src/solvers/exact.rs: naive_solver, first_improved_solver, second_improved_solver, third_improved_solver", "src/mst.rs: prim_with_excluded_node_single_threaded"]}
{"id": "C86", "title": "Turning every way round turns the optimal tours round", "statement": "Let every cost be exchanged with that of the opposite direction. V0, V2 and V3 (under the conditions of C01, C03 and C04) find the same cost, and the tour found for one of the two instances, walked backwards, is an optimal tour of the other. evaluate_circle of a list of vertices walked backwards is the same. This does not hold for the code that reads the ways in one direction only: V1, the nearest-neighbour heuristic from the same start, the weight of Prim's tree and the outcome of is_metric can all change.", "quantifier": "all instances with exact costs (integers, or doubles that add exactly), symmetric or not, all lists of vertices", "why_tests_cant": "The claim compares the outputs on infinitely many pairs of asymmetric instances.", "anchors": ["src/solvers/exact.rs: naive_solver, first_improved_solver, second_improved_solver, third_improved_solver", "src/datastructures/mod.rs: evaluate_circle, is_metric", "src/solvers/approximate/nearest_neighbour.rs: single_nearest_neighbour", "src/mst.rs: prim_with_excluded_node_single_threaded"]}
{"id": "C87", "title": "What a matrix made of arbitrary rows does", "statement": "VecMatrix::from takes any list of rows, also of different lengths. get returns the entry if the row has one in that column and panics otherwise. What stands to the right of the square is never read: V0 to V4 (V2 to V4 from two rows on), evaluate_path and evaluate_circle of distinct vertices, is_metric and the copy into an NAMatrix give the same as on the square alone. The copy into an NAMatrix succeeds, and keeps every cell, if no row is shorter than the number of rows, and panics otherwise. V0, and from two rows on V2, V3 and V4, return a solution if there is a cell for every pair of different vertices, and panic otherwise; V1 may answer although a cell is missing. The two conditions differ: rows that lack a cell of the diagonal can be solved but not copied.", "quantifier": "all lists of rows of any lengths, over every arithmetic (doubles and exact numbers, with infinities and NaN), all indices and lists of distinct vertices", "why_tests_cant": "That no access leaves the square, and that the enumeration comes across every missing cell, concerns all shapes of rows and all permutations.", "anchors": ["src/datastructures/vecmatrix.rs: From<Vec<Vec<f64>>> for VecMatrix, get, dim", "src/datastructures/nalgebra.rs: From<&T> for NAMatrix", "src/datastructures/mod.rs: evaluate_path, evaluate_circle, is_metric", "src/solvers/exact.rs: naive_solver, first_improved_solver, second_improved_solver, third_improved_solver, fourth_improved_solver"]}
