{"id": "C01", "title": "Graph insertion behaves like a set of edges", "statement": "Starting from a default graph and inserting any finite sequence of edges without self loops, contains({u,v}) is true exactly when {u,v} was inserted (in either orientation for an undirected graph, in that orientation for a directed one), every insert returns true exactly when the edge was not yet present, size_edge() is the number of distinct edges and size_vertex() is one more than the largest vertex mentioned.", "quantifier": "for every finite sequence of edges and both values of the directed flag", "why_tests_cant": "the number of insertion orders and shapes is unbounded; the offset bookkeeping is shifted piecewise and depends on the relative position of both rows", "anchors": ["include/graph/adjacency_graph.hpp: Adjacency_Graph::insert, contains, size_edge, size_vertex, insert_vertex_adjacent_list", "include/graph/edge.hpp: order_edge_vertex"]}
{"id": "C02", "title": "Graph representation invariant is preserved by every operation", "statement": "After any sequence of insert, resize, erase_if, reorder and clear calls whose documented preconditions hold, every adjacency list is strictly ascending and only names existing vertices, in an undirected graph u is adjacent to v exactly when v is adjacent to u, and the degrees sum to 2*size_edge() (undirected) or size_edge() (directed).", "quantifier": "for every finite sequence of modifying calls, of any length", "why_tests_cant": "tests check a few hand written graphs; an invariant over all histories needs induction", "anchors": ["include/graph/adjacency_graph.hpp: insert, resize, erase_if, reorder, clear, degree, size_edge"]}
{"id": "C03", "title": "Graph resize keeps exactly the surviving edges", "statement": "resize(n) yields a graph with n vertices that contains an edge exactly when the old graph contained it and both end points are below n; growing adds only isolated vertices.", "quantifier": "for every well formed graph and every n", "why_tests_cant": "every graph/size combination cannot be enumerated; the shrinking loop carries an offset across rows", "anchors": ["include/graph/adjacency_graph.hpp: Adjacency_Graph::resize"]}
{"id": "C04", "title": "Graph resize touches only its own storage", "statement": "resize(n) never reads or writes outside the storage of the graph's two arrays.", "quantifier": "for every well formed graph and every n", "why_tests_cant": "an out of bounds access into vector capacity normally goes unnoticed by a unit test", "anchors": ["include/graph/adjacency_graph.hpp: Adjacency_Graph::resize (lines 501-525)"]}
{"id": "C05", "title": "erase_if produces the induced, relabelled subgraph", "statement": "erase_if(p) removes exactly the vertices satisfying p and every edge touching one; the remaining vertices keep their relative order and two of them are adjacent afterwards exactly when they were before.", "quantifier": "for every well formed graph and every pure predicate on vertices", "why_tests_cant": "the predicate and graph range over infinite sets", "anchors": ["include/graph/adjacency_graph.hpp: Adjacency_Graph::erase_if"]}
{"id": "C06", "title": "erase_if is defined for every graph", "statement": "erase_if(p) has no undefined behaviour for any graph, including graphs with isolated vertices, with fewer adjacency entries than vertices, and the empty graph.", "quantifier": "for every well formed graph and predicate", "why_tests_cant": "the overflow depends on the ratio of vertices to adjacency entries and does not fail deterministically", "anchors": ["include/graph/adjacency_graph.hpp: Adjacency_Graph::erase_if (new_indexes allocation, offset.back())"]}
{"id": "C07", "title": "Graph reorder is an isomorphism and returns the old graph", "statement": "For a permutation p of the vertices, after reorder(p) vertices p[u] and p[v] are adjacent exactly when u and v were, degrees move with their vertex, vertex and edge counts are unchanged, the old graph is returned, and reordering by the inverse permutation restores the original graph exactly.", "quantifier": "for every well formed graph and every permutation", "why_tests_cant": "n! permutations per graph", "anchors": ["include/graph/adjacency_graph.hpp: Adjacency_Graph::reorder"]}
{"id": "C08", "title": "Graph reorder rejects vectors that are not permutations", "statement": "With assertions enabled, reorder(p) terminates the program for every vector p of the right length that is not a permutation of the vertices.", "quantifier": "for every graph and every index vector", "why_tests_cant": "the check is a checksum; tests would need to guess a colliding vector", "anchors": ["include/graph/adjacency_graph.hpp: Adjacency_Graph::reorder (checksum assertion)"]}
{"id": "C09", "title": "level_traversal computes exact shortest path distances", "statement": "level_traversal(graph, s) returns for every vertex v the length of a shortest path from s to v, and the no-data value for vertices that cannot be reached.", "quantifier": "for every well formed graph with at least two vertices and every start vertex", "why_tests_cant": "optimality over all paths in all graphs is not testable", "anchors": ["include/graph/graph_utilities.hpp: level_traversal (single start)"]}
{"id": "C10", "title": "level_traversal with several sources and an end level", "statement": "Given any set of start vertices with level 0 and all other vertices without a level, level_traversal(graph, queue, levels, e) labels exactly the vertices within distance e of the start set, each with its distance to the nearest start vertex.", "quantifier": "for every well formed graph, every nonempty start set and every end level", "why_tests_cant": "same as above, additionally relies on size_t roll over of the no-data value", "anchors": ["include/graph/graph_utilities.hpp: level_traversal (queue)"]}
{"id": "C11", "title": "level_traversal accepts every non-empty graph", "statement": "In a build with assertions, level_traversal(graph, s) does not terminate the program when graph is non-empty and s is one of its vertices.", "quantifier": "for every non-empty graph and vertex", "why_tests_cant": "the assertion only fires on boundary sizes", "anchors": ["include/graph/graph_utilities.hpp: level_traversal (assertion on the maximum level)"]}
{"id": "C12", "title": "level_expansion colours every vertex by a nearest seed", "statement": "level_expansion(graph, seeds, colour) terminates without tripping its iteration assertion, colours exactly the vertices connected to some seed, and the seed whose index is the colour of v is at minimal distance from v among all seeds.", "quantifier": "for every well formed graph and every nonempty list of seed vertices, repeated seeds included", "why_tests_cant": "interleaved multi source search with alternating sweeps; the nearest claim quantifies over all paths", "anchors": ["include/graph/graph_utilities.hpp: level_expansion"]}
{"id": "C13", "title": "level_expansion detects disconnected graphs", "statement": "level_expansion terminates the program with its 'is the graph disjoint?' error when some vertex is not reachable from any seed.", "quantifier": "for every graph in which some vertex is unreachable from the seeds", "why_tests_cant": "the assertion is written as an iteration bound and looks plausible", "anchors": ["include/graph/graph_utilities.hpp: level_expansion (iteration assertion)"]}
{"id": "C14", "title": "pseudo_peripheral_vertex terminates at a peripheral vertex", "statement": "pseudo_peripheral_vertex(graph, s) terminates; on an undirected connected graph with more than one vertex the result p is a vertex whose largest distance is at least that of s, p is itself at that largest distance from some other vertex, and no vertex farthest from p has a smaller degree than p.", "quantifier": "for every well formed graph and start vertex", "why_tests_cant": "termination of a data dependent while loop on all graphs", "anchors": ["include/graph/graph_utilities.hpp: pseudo_peripheral_vertex"]}
{"id": "C15", "title": "eccentricity_vertex_breadth_first computes exact distances", "statement": "eccentricity_vertex_breadth_first(graph, s, distance) without a stop index fills distance with the exact shortest path distance from s to every vertex, no-data if unreachable.", "quantifier": "for every well formed graph and start vertex", "why_tests_cant": "optimality over all paths", "anchors": ["include/graph/graph_utilities.hpp: eccentricity_vertex_breadth_first"]}
{"id": "C16", "title": "eccentricity_graph tabulates all pairwise distances", "statement": "eccentricity_graph(graph, table) fills table[u][v], for v <= u, with the shortest path distance between u and v, without undefined behaviour.", "quantifier": "for every well formed graph", "why_tests_cant": "the stop index makes the search read past the distance vector; the only test compares the function with itself", "anchors": ["include/graph/graph_utilities.hpp: eccentricity_graph, eccentricity_vertex_breadth_first (i_stop)"]}
{"id": "C17", "title": "breadth_first returns a level ordered permutation", "statement": "breadth_first(graph, root) on a connected graph returns a permutation that sends root to 0 and numbers vertices in non decreasing distance from root; on a disconnected graph the program is terminated.", "quantifier": "for every well formed non-empty graph and root", "why_tests_cant": "all graphs and all roots", "anchors": ["src/graph/reorder.cpp: breadth_first"]}
{"id": "C18", "title": "cuthill_mckee returns a level ordered permutation", "statement": "cuthill_mckee(graph, start) on a connected graph returns, whatever order the library sort gives to equal degrees, a permutation that sends the start vertex to 0 and numbers vertices in non decreasing distance from it; without an explicit start the start vertex has minimum degree.", "quantifier": "for every well formed connected graph, every start vertex and every correct sorting routine (debug build without explicit start: more than one vertex, see C62)", "why_tests_cant": "std::sort is unstable so a test observes one tie break only", "anchors": ["src/graph/reorder.cpp: cuthill_mckee"]}
{"id": "C19", "title": "cuthill_mckee_reverse mirrors cuthill_mckee", "statement": "cuthill_mckee_reverse(graph, s)[v] = size-1 - cuthill_mckee(graph, s)[v] for every vertex, hence it is again a permutation, with the start vertex numbered last.", "quantifier": "for every well formed connected graph and start vertex", "why_tests_cant": "all graphs", "anchors": ["include/graph/reorder.hpp: cuthill_mckee_reverse"]}
{"id": "C20", "title": "greedy_multicolouring groups vertices into independent blocks", "statement": "For a graph with at least one edge, greedy_multicolouring returns a permutation for which there is an assignment of colours to vertices such that adjacent vertices have different colours and vertices are numbered by colour, ties by original index.", "quantifier": "for every well formed undirected graph with an edge", "why_tests_cant": "all graphs", "anchors": ["src/graph/reorder.cpp: greedy_multicolouring"]}
{"id": "C21", "title": "greedy_multicolouring returns a permutation for every graph", "statement": "greedy_multicolouring returns a permutation of the vertices for every graph, including graphs without edges.", "quantifier": "for every well formed graph", "why_tests_cant": "the defect needs a graph in which no vertex has a neighbour", "anchors": ["src/graph/reorder.cpp: greedy_multicolouring (max_color bookkeeping)"]}
{"id": "C22", "title": "greedy_multicolouring uses the lowest free colour", "statement": "Each vertex receives the lowest colour not used by its already coloured neighbours, so that at most (maximum degree + 1) colours are used.", "quantifier": "for every well formed graph", "why_tests_cant": "tests compare with recorded output only", "anchors": ["src/graph/reorder.cpp: greedy_multicolouring (colour search)"]}
{"id": "C23", "title": "recursive_graph_bisection partitions the vertices", "statement": "recursive_graph_bisection(graph, k) returns exactly k subgraphs whose local-to-global lists are disjoint and together cover all vertices; each subgraph is the induced subgraph of its list, and none is empty when k does not exceed the number of vertices.", "quantifier": "for every well formed graph with at least as many adjacency entries as vertices and every k >= 1", "why_tests_cant": "all graphs, all k, data dependent splitting", "anchors": ["src/graph/partition.cpp: recursive_graph_bisection"]}
{"id": "C24", "title": "multinode_level_set_expansion keeps a partition", "statement": "Given a connected graph and non-empty disjoint subgraphs of it, multinode_level_set_expansion replaces them by as many non-empty subgraphs that partition the vertices, without undefined behaviour.", "quantifier": "for every connected graph, initial disjoint subgraphs and iteration count", "why_tests_cant": "depends on eccentricities computed by reads past the end of a vector", "anchors": ["src/graph/partition.cpp: multinode_level_set_expansion"]}
{"id": "C25", "title": "Subgraph construction yields the induced subgraph", "statement": "For an ascending duplicate free list of parent vertices, local vertices i and j of the subgraph are adjacent exactly when local_global(i) and local_global(j) are adjacent in the parent, and the subgraph has one vertex per list entry.", "quantifier": "for every well formed parent graph with at least as many adjacency entries as vertices and every ascending vertex list", "why_tests_cant": "all parents and vertex lists", "anchors": ["src/graph/adjacency_subgraph.cpp: Adjacency_Subgraph::Adjacency_Subgraph", "include/graph/adjacency_subgraph.hpp: local_global"]}
{"id": "C26", "title": "Subgraph construction accepts any list order", "statement": "The correspondence of the previous property holds for every duplicate free list of parent vertices, in whatever order it is given.", "quantifier": "for every parent graph and every duplicate free vertex list", "why_tests_cant": "tests use ascending lists", "anchors": ["src/graph/adjacency_subgraph.cpp: Adjacency_Subgraph::Adjacency_Subgraph (i_local_global vs erase_if numbering)"]}
{"id": "C27", "title": "Subgraph levels are distances to the primary partition", "statement": "A subgraph constructed with k extra levels contains exactly the parent vertices within distance k of its primary partition; vertex_level is that distance; it is the induced subgraph under local_global; raising or lowering the level count later gives the same vertex set as constructing with that level count directly.", "quantifier": "for every well formed undirected parent, ascending partition and sequence of level updates", "why_tests_cant": "all graphs and update sequences", "anchors": ["src/graph/adjacency_subgraph.cpp: add_levels, remove_levels, update_levels"]}
{"id": "C28", "title": "Subgraph reorder keeps the parent mapping", "statement": "After Subgraph::reorder(p) the vertex p[i] has the local_global, level and adjacency (relabelled) that i had, and the returned subgraph equals the subgraph before the call, including the parent it reports.", "quantifier": "for every subgraph and permutation", "why_tests_cant": "all permutations; the parent identity of the returned object is not observed by tests", "anchors": ["src/graph/adjacency_subgraph.cpp: Adjacency_Subgraph::reorder"]}
{"id": "C29", "title": "is_parent identifies the parent graph", "statement": "is_parent(g) is true for the graph the subgraph was constructed from and false for every graph with different vertices or edges.", "quantifier": "for every pair of graphs", "why_tests_cant": "hash collisions are not found by sampling a few graphs", "anchors": ["include/graph/adjacency_subgraph.hpp: is_parent", "include/graph/adjacency_graph.hpp: std::hash<Adjacency_Graph>"]}
{"id": "C30", "title": "create_graph_line builds the path on n vertices", "statement": "create_graph_line(n) has n vertices, n-1 edges, and contains {i,j} exactly when |i-j| = 1 (directed: j = i+1).", "quantifier": "for every n", "why_tests_cant": "all n", "anchors": ["include/graph/generator.hpp: create_graph_line"]}
{"id": "C31", "title": "create_graph_structured builds the n by n grid", "statement": "create_graph_structured(n) has n*n vertices and contains exactly the edges between horizontally or vertically neighbouring grid points (2n(n-1) of them).", "quantifier": "for every n", "why_tests_cant": "all n", "anchors": ["include/graph/generator.hpp: create_graph_structured"]}
{"id": "C32", "title": "Sparse matrix behaves like a finite map under updates", "statement": "Under any sequence of insert, insert_or_assign, subscript assignment, erase, resize (to at least one column), clear and scaling the stored entries are those of a finite map from (row, column) to values: insert keeps an existing value, insert_or_assign overwrites it, erase removes it, resize drops exactly the entries outside the new shape; find, contains, lower_bound and the const subscript read that map; size_row, size_column and size_non_zero agree with it.", "quantifier": "for every finite operation sequence and every scalar type", "why_tests_cant": "unbounded histories; compressed offsets are shifted by every update", "anchors": ["src/core/matrix_sparse.cpp: insert, insert_or_assign, erase, resize, find, contains, lower_bound", "include/core/matrix_sparse.hpp: Matrix_Sparse_Row::operator[]"]}
{"id": "C33", "title": "Sparse matrix compressed storage invariant", "statement": "After any such sequence row iteration visits each row's entries in strictly ascending column order, every column is below size_column() and the three internal arrays stay consistent (no access outside them occurs).", "quantifier": "for every finite operation sequence", "why_tests_cant": "unbounded histories", "anchors": ["src/core/matrix_sparse.cpp: insert, erase, resize", "include/core/matrix_sparse.hpp: Matrix_Sparse_Row::begin, end"]}
{"id": "C34", "title": "Sparse at() reports missing entries", "statement": "at(i,j) returns the stored value when (i,j) is stored and otherwise terminates with an error; it never returns another entry's value or reads outside the storage.", "quantifier": "for every well formed sparse matrix and every i, j", "why_tests_cant": "needs a missing entry whose successor row starts in the same column", "anchors": ["src/core/matrix_sparse.cpp: Matrix_Sparse::at"]}
{"id": "C35", "title": "Sparse resize to any shape drops out of range entries", "statement": "After resize(r,c) every stored entry has row below r and column below c, for every c including 0.", "quantifier": "for every well formed sparse matrix and every r, c", "why_tests_cant": "only the column count 0 fails, through unsigned wrap around", "anchors": ["src/core/matrix_sparse.cpp: Matrix_Sparse::resize", "include/core/matrix_sparse_data.hpp: resize"]}
{"id": "C36", "title": "Sparse lookups accept any row index", "statement": "find, lower_bound and contains are defined for every row index, returning end/false for rows that do not exist.", "quantifier": "for every sparse matrix and every row and column index", "why_tests_cant": "the out of bounds read happens one past the offset array and is silent", "anchors": ["src/core/matrix_sparse.cpp: find, lower_bound, contains", "src/core/matrix_sparse.cpp: Matrix_Sparse_Row::end"]}
{"id": "C37", "title": "Sparse constructor validates its input", "statement": "The offset/column/value constructor terminates the program exactly when the arrays do not describe a matrix (offsets not starting at 0, not ascending, not ending at the entry count, mismatching lengths, a column out of range or repeated in a row) and otherwise stores exactly the given entries with each row sorted.", "quantifier": "for every non-empty offset list and every column and value list", "why_tests_cant": "all malformed inputs cannot be listed", "anchors": ["src/core/matrix_sparse.cpp: Matrix_Sparse::Matrix_Sparse(initializer lists)"]}
{"id": "C38", "title": "Sparse addition and subtraction are entrywise", "statement": "After A += B (A -= B) an entry is stored exactly when it was stored in A or B, with value a+b (a+(-b)) if in both, b (-b) if only in B and a if only in A; shape is unchanged; this also holds for A += A.", "quantifier": "for every pair of well formed sparse matrices of equal shape, every scalar type", "why_tests_cant": "insertion while iterating two structures; all sparsity patterns", "anchors": ["src/core/matrix_sparse.cpp: matrix_arithmetic", "include/core/matrix_sparse.hpp: operator+=, operator-="]}
{"id": "C39", "title": "Sparse product is the matrix product", "statement": "A * B has the rows of A and columns of B; an entry (i,j) is stored exactly when some k has both (i,k) and (k,j) stored, and its value is the sum over those k, in ascending order, of a_ik * b_kj; over the reals this is the matrix product.", "quantifier": "for every pair of well formed matrices of compatible shape, every scalar type", "why_tests_cant": "all sparsity patterns", "anchors": ["src/core/matrix_sparse.cpp: Matrix_Sparse::operator*=", "include/core/matrix_sparse.hpp: operator*"]}
{"id": "C40", "title": "Sparse in-place product by itself", "statement": "A *= A stores the same result as A * A. A matrix that is not square is refused by the debug build.", "quantifier": "for every square sparse matrix", "why_tests_cant": "aliasing of the argument with the receiver is not exercised", "anchors": ["src/core/matrix_sparse.cpp: Matrix_Sparse::operator*="]}
{"id": "C41", "title": "Sparse matrix vector product", "statement": "A * x has one component per row of A, namely the sum over the stored entries of the row of a_ij * x_j in ascending column order.", "quantifier": "for every well formed matrix and vector of matching size, every scalar type", "why_tests_cant": "all sparsity patterns", "anchors": ["include/core/matrix_sparse.hpp: operator*(Matrix_Sparse, Vector_Dense)"]}
{"id": "C42", "title": "Sparse iterators satisfy random access laws", "statement": "For row and element iterators, it + n designates the position n steps after it and leaves it unchanged, and it += n advances it by n.", "quantifier": "for every iterator position and offset", "why_tests_cant": "tests exercise ++ and -- only on small matrices", "anchors": ["include/core/matrix_sparse.hpp: Iterator_Matrix_Sparse_Row operators, Iterator_Matrix_Sparse_Element operators"]}
{"id": "C43", "title": "CSR_Data functions agree with the finite map", "statement": "The free functions insert, insert_or_assign, lower_bound and resize (to at least one column) on CSR_Data keep a well formed compressed structure and act on it as the finite map operations of the sparse matrix.", "quantifier": "for every operation sequence on CSR_Data", "why_tests_cant": "unbounded histories", "anchors": ["include/core/matrix_sparse_data.hpp: insert, insert_or_assign, lower_bound, resize, i_row"]}
{"id": "C44", "title": "Dense element-wise operators", "statement": "Dense vector and matrix +, -, +=, -=, scalar * and / act component by component and keep the shape; mismatching sizes terminate the program when assertions are enabled.", "quantifier": "for every pair of vectors/matrices and every scalar type", "why_tests_cant": "all sizes and values", "anchors": ["include/core/vector_dense.hpp: operators", "include/core/matrix_dense.hpp: operators"]}
{"id": "C45", "title": "Dense matrix vector product", "statement": "A * x has one component per row of A, namely the sum over columns j, ascending, of a_ij * x_j, for every matrix shape.", "quantifier": "for every r by c matrix and vector of length c", "why_tests_cant": "tests use square matrices", "anchors": ["include/core/matrix_dense.hpp: operator*(Matrix_Dense, Vector_Dense)"]}
{"id": "C46", "title": "Dense matrix product", "statement": "A * B has the rows of A and columns of B with component (i,j) the sum over k, ascending, of a_ik * b_kj; A *= A gives A * A.", "quantifier": "for every pair of compatible dynamic matrices", "why_tests_cant": "all shapes; aliasing", "anchors": ["include/core/matrix_dense.hpp: operator*=, operator*"]}
{"id": "C47", "title": "Scaling by an own element", "statement": "x *= s and x /= s scale every component of a vector, a dense matrix or a sparse matrix by the value s had before the call, also when s is an element of x.", "quantifier": "for every vector, dense matrix, sparse matrix and scalar, aliasing included", "why_tests_cant": "aliasing of the scalar reference is not exercised", "anchors": ["include/core/vector_dense.hpp: operator*=, operator/=", "include/core/matrix_dense.hpp: operator*=, operator/=", "include/core/matrix_sparse.hpp: operator*=, operator/="]}
{"id": "C48", "title": "Geometric vector operations", "statement": "Over the reals: unit(v) has norm one and is a non-negative multiple of v unless v is zero; projection_tangent plus projection_orthogonal of v is v and, for a unit direction d, the orthogonal part has zero dot product with d; cross_product is orthogonal to both arguments and anti-symmetric; angle is symmetric and lies in [0, pi].", "quantifier": "for all real vectors of matching size", "why_tests_cant": "all real vectors", "anchors": ["include/core/vector_operators.hpp: lp_norm, unit, projection_tangent, projection_orthogonal, cross_product, angle"]}
{"id": "C49", "title": "unit normalises every non-zero floating point vector", "statement": "unit(v) in double precision is not the zero vector when v is a finite vector with a non-zero component.", "quantifier": "for every finite double precision vector", "why_tests_cant": "underflow of the squared norm is outside of tested magnitudes", "anchors": ["include/core/vector_operators.hpp: unit, lp_norm"]}
{"id": "C50", "title": "Approximate comparisons are coherent", "statement": "is_nearly_equal is reflexive on numbers and symmetric; for numbers exactly one of is_nearly_less, is_nearly_equal, is_nearly_greater holds, is_nearly_less(a,b) equals is_nearly_greater(b,a), and the _equal variants are the unions.", "quantifier": "for all pairs of double precision values that are not NaN and all tolerances", "why_tests_cant": "2^128 pairs", "anchors": ["include/core/scalar.hpp: is_nearly_equal, is_nearly_less, is_nearly_greater, is_nearly_less_equal, is_nearly_greater_equal"]}
{"id": "C51", "title": "Approximate comparisons with NaN", "statement": "No approximate order comparison with NaN is true.", "quantifier": "for every value compared with NaN", "why_tests_cant": "NaN is not exercised", "anchors": ["include/core/scalar.hpp: is_nearly_less, is_nearly_greater"]}
{"id": "C52", "title": "LU factorisation solves the linear system", "statement": "In exact arithmetic, whenever factorise(A) returns true for a square matrix and a positive tolerance, solve_system(x,b) reports convergence and sets x to a vector with A x = b, with and without pivoting and whichever admissible pivot rows are chosen; hence A is invertible.", "quantifier": "for every n, every n by n matrix over a field, every right hand side", "why_tests_cant": "all sizes and values", "anchors": ["include/solver/direct_lower_upper_factorisation.hpp: factorise, solve_system"]}
{"id": "C53", "title": "Unfactorised direct solver never claims success", "statement": "If factorise has not been called or its last call returned false, solve_system leaves x unchanged and reports not converged, for every history of calls.", "quantifier": "for every sequence of factorise and solve_system calls", "why_tests_cant": "histories", "anchors": ["include/solver/direct_lower_upper_factorisation.hpp: factorise, solve_system, factorised"]}
{"id": "C54", "title": "Fixed points of the iterative sweeps are the solutions", "statement": "In exact arithmetic, for a sparse matrix with stored non-zero diagonal, a Jacobi, Gauss-Seidel or relaxed (factor not zero) sweep leaves x unchanged exactly when A x = b.", "quantifier": "for every n, matrix, right hand side and relaxation factor", "why_tests_cant": "all matrices", "anchors": ["src/solver/solver_fixed_point.cpp: forward_sweep, Solver_Fixed_Point::solve_system"]}
{"id": "C55", "title": "Iterative solvers terminate within the configured iterations", "statement": "Every iterative solve terminates and performs no more than max(minimum_iterations, maximum_iterations) sweeps.", "quantifier": "for every system, initial guess and configuration", "why_tests_cant": "loop bound off by one only shows on non converging systems", "anchors": ["src/solver/solver_fixed_point.cpp: solve_system", "include/solver/solver_utilities.hpp: Convergence_Criteria::is_converged"]}
{"id": "C56", "title": "Iterative solvers report convergence", "statement": "The data returned by an iterative solve has converged set exactly when the normalised residual met the tolerance.", "quantifier": "for every system and configuration", "why_tests_cant": "tests do not inspect the flag of iterative solvers", "anchors": ["src/solver/solver_fixed_point.cpp: solve_system", "include/solver/solver_utilities.hpp: Convergence_Data"]}
{"id": "C57", "title": "Early stop means small residual", "statement": "If an iterative solve stops having done at least one and no more than maximum_iterations sweeps, then at least minimum_iterations sweeps were done and the normalised residual of the returned x is at most the tolerance (or not a number).", "quantifier": "for every system and configuration", "why_tests_cant": "all runs", "anchors": ["src/solver/solver_fixed_point.cpp: solve_system", "include/solver/solver_utilities.hpp: is_converged, update"]}
{"id": "C58", "title": "Successive over relaxation uses the configured factor", "statement": "The sweep done by the SOR solver depends on the configured relaxation factor and equals the Gauss-Seidel sweep when the factor is 1.", "quantifier": "for every relaxation factor", "why_tests_cant": "the only test configures the value that is hard coded", "anchors": ["src/solver/solver_fixed_point.cpp: Solver_Fixed_Point<successive_over_relaxation>::solve_system"]}
{"id": "C59", "title": "compute_residual returns the RMS and maximum residual", "statement": "In exact arithmetic compute_residual returns sqrt(sum r_i^2 / n) and max |r_i| for r = b - A x.", "quantifier": "for every system", "why_tests_cant": "all systems", "anchors": ["include/solver/solver_utilities.hpp: compute_residual"]}
{"id": "C60", "title": "Jacobi and Gauss-Seidel contract on diagonally dominant systems", "statement": "In exact arithmetic, for a strictly row diagonally dominant matrix each Jacobi or Gauss-Seidel sweep reduces the maximum error to the solution by at least the dominance factor, so the error after k sweeps is at most q^k times the initial one.", "quantifier": "for every strictly diagonally dominant system, every initial guess and every k", "why_tests_cant": "convergence for all systems is an analytic statement", "anchors": ["src/solver/solver_fixed_point.cpp: forward_sweep, Solver_Fixed_Point::solve_system"]}
{"id": "C61", "title": "Solver dispatch", "statement": "build_solver selects exactly the solver named in the configuration and Solver::solve forwards to it; asking a direct solver for a sparse solve or an iterative solver for a dense solve never returns a result.", "quantifier": "for every configuration and both solve overloads", "why_tests_cant": "fall through in the switch is only visible for unsupported combinations", "anchors": ["src/solver/solver.cpp: build_solver", "include/solver/solver.hpp: Solver::solve"]}
{"id": "C62", "title": "cuthill_mckee without start vertex accepts every connected graph", "statement": "cuthill_mckee(graph) without an explicit start vertex does not terminate the program when the graph is non-empty and connected.", "quantifier": "for every well formed non-empty connected graph, both build modes", "why_tests_cant": "the assertion on a zero minimum degree only misfires on the one vertex graph", "anchors": ["src/graph/reorder.cpp: cuthill_mckee (minimum degree assertion)"]}
{"id": "C63", "title": "update_levels fills the global-to-local map", "statement": "After update_levels(parent, k, map) returns, the vector behind map has one entry per parent vertex: the local index for vertices of the subgraph, and numeric_limits::max() for all others.", "quantifier": "for every parent, partition, update history, level count below numeric_limits::max() and previous content of the vector", "why_tests_cant": "the map is only inspected by the partitioner, and only after additions", "anchors": ["src/graph/adjacency_subgraph.cpp: add_levels, remove_levels, update_levels"]}
{"id": "C64", "title": "Subgraph::at is range checked", "statement": "Subgraph::at(i) with i not below size_vertex() terminates the program instead of reading out of range, as its documentation (\"with range checking\") says.", "quantifier": "for every subgraph, index and build mode", "why_tests_cant": "tests run with DISA_DEBUG, where operator[] checks as well", "anchors": ["include/graph/adjacency_subgraph.hpp: at"]}
{"id": "C65", "title": "Subgraph::resize keeps the leading vertices", "statement": "Resizing a subgraph to n vertices keeps local_global, levels and mutual edges of the first n vertices; shrinking keeps the parent, growing adds isolated vertices and invalidates the parent hash.", "quantifier": "for every subgraph, history and n", "why_tests_cant": "all subgraphs and sizes", "anchors": ["include/graph/adjacency_subgraph.hpp: resize"]}
{"id": "C66", "title": "Sparse data() exposes the storage", "statement": "data() returns pointers to the offsets, columns and values of a sparse matrix that has entries, and the offsets with two null pointers for a matrix with rows but no entries.", "quantifier": "for every sparse matrix", "why_tests_cant": "the function has no test; the branches are swapped for every matrix", "anchors": ["include/core/matrix_sparse.hpp: Matrix_Sparse::data"]}
{"id": "C67", "title": "lp_norm computes the p-norm", "statement": "Over the reals lp_norm<p> of a vector is the non-negative number whose p-th power is the sum of the p-th powers of the absolute values, and the largest absolute value for p = 0; it is defined for every vector, including empty ones.", "quantifier": "for all p and all real vectors", "why_tests_cant": "all p and all real vectors; the tests use a few small p and sizes", "anchors": ["include/core/vector_operators.hpp: lp_norm"]}
{"id": "C68", "title": "lp_norm is a norm", "statement": "Over the reals lp_norm<p> is non-negative, zero only for the zero vector, absolutely homogeneous and satisfies the triangle inequality.", "quantifier": "for all p and all non-empty real vectors", "why_tests_cant": "all p and all real vectors", "anchors": ["include/core/vector_operators.hpp: lp_norm"]}
{"id": "C69", "title": "mean is the arithmetic mean", "statement": "Over the reals the mean of a non-empty vector times its size is the sum of its elements and the mean lies between any lower and upper bound of the elements; debug builds refuse empty dynamic vectors.", "quantifier": "for all real vectors", "why_tests_cant": "all real vectors", "anchors": ["include/core/vector_operators.hpp: mean"]}
{"id": "C70", "title": "Direct solve in place", "statement": "Calling solve_system with the same vector as solution and constant vector leaves the solution of A x = b in it.", "quantifier": "for every factorised matrix and right hand side, with and without pivoting", "why_tests_cant": "aliasing is not tested", "anchors": ["include/solver/direct_lower_upper_factorisation.hpp: factorise, solve_system"]}
{"id": "C71", "title": "Pivoting bounds the multipliers", "statement": "In exact arithmetic every multiplier stored below the diagonal by a successful factorisation with pivoting is at most 1 + 2^-10 in magnitude when the tolerance is at least its default in the configuration.", "quantifier": "for every square matrix", "why_tests_cant": "all matrices; the pivot search uses an approximate comparison", "anchors": ["include/solver/direct_lower_upper_factorisation.hpp: factorise, solve_system"]}
{"id": "C72", "title": "factorise refuses exactly the singular matrices", "statement": "In exact arithmetic factorise returns false if and only if the matrix is singular.", "quantifier": "for every square matrix, with and without pivoting", "why_tests_cant": "all matrices", "anchors": ["include/solver/direct_lower_upper_factorisation.hpp: factorise, solve_system"]}
{"id": "C73", "title": "factorise refuses matrices that are not square", "statement": "factorise of a dynamic matrix that is not square is refused and does not access memory outside of the matrix.", "quantifier": "for every shape", "why_tests_cant": "shapes that are not square are not tested", "anchors": ["include/solver/direct_lower_upper_factorisation.hpp: factorise, solve_system"]}
{"id": "C74", "title": "Converged direct solves are finite", "statement": "In double precision a direct solve that reports convergence returns finite values.", "quantifier": "for every matrix and right hand side", "why_tests_cant": "NaN and overflow are not tested", "anchors": ["include/solver/direct_lower_upper_factorisation.hpp: factorise, solve_system"]}
{"id": "C75", "title": "Iterative solves of square systems succeed", "statement": "For a square sparse matrix with every diagonal entry stored and vectors of its size, a solve by each of the three iterative solvers returns, without undefined behaviour or a failed assertion, a solution vector of the same size.", "quantifier": "for every scalar type, system, initial guess, working vector and iteration limits below the largest std::size_t", "why_tests_cant": "memory safety for every sparsity pattern", "anchors": ["src/solver/solver_fixed_point.cpp: forward_sweep, solve_system", "include/solver/solver_utilities.hpp: compute_residual"]}
{"id": "C76", "title": "Residuals are normalised by the initial residual", "statement": "The normalised residuals of the convergence data are the residuals divided by the residuals of the initial guess, as documented for residual_0.", "quantifier": "for every system and initial guess", "why_tests_cant": "tests only look at the final residual", "anchors": ["include/solver/solver_utilities.hpp: Convergence_Data::update"]}
{"id": "C77", "title": "Stopping before the maximum means a finite small residual", "statement": "In double precision, an iterative solve that stops within the maximum number of iterations has a finite residual that is at most the tolerance times the first residual.", "quantifier": "for every system of doubles", "why_tests_cant": "overflow occurs only on diverging systems", "anchors": ["include/solver/solver_utilities.hpp: Convergence_Criteria::is_converged, Convergence_Data::update"]}
{"id": "C78", "title": "Configuration round trip of the direct solvers", "statement": "get_config of a direct solver made by build_solver returns the type, pivoting and factorisation tolerance it was configured with.", "quantifier": "for every configuration of the direct solver", "why_tests_cant": "every tolerance value", "anchors": ["include/solver/direct_lower_upper_factorisation.hpp: get_config, initialise_solver", "src/solver/solver.cpp: build_solver"]}
{"id": "C79", "title": "A row object shows its row", "statement": "The row object for row i made from compressed row data lists, in strictly ascending column order, exactly the elements stored in row i; its index, number of columns and number of non-zeros are right; at(column) and operator[] read the stored value and at(column) reports an element that is not stored.", "quantifier": "for every well-formed compressed row storage and every row of it", "why_tests_cant": "every layout of rows, including empty first and last rows", "anchors": ["include/core/matrix_sparse_new.hpp: Matrix_Sparse_Row constructor, row, size, size_non_zero, begin, end, at, SparseAccessor"]}
{"id": "C80", "title": "Assignments through a row object", "statement": "After any sequence of assignments row[column] = value through one row object, the storage satisfies the compressed row invariant, every other row is unchanged, row i holds the last value assigned to each column and the old value elsewhere, and the row object again shows row i.", "quantifier": "for every well-formed storage, row and finite sequence of assignments, by induction", "why_tests_cant": "unbounded sequences of insertions and overwrites; each may move every later row", "anchors": ["include/core/matrix_sparse_new.hpp: SparseAccessor::operator=, Matrix_Sparse_Row::operator=", "include/core/matrix_sparse_data.hpp: insert_or_assign"]}
{"id": "C81", "title": "Other row objects stay valid", "statement": "An assignment through one row object leaves every other row object of the same storage showing its own row.", "quantifier": "for every storage and pair of rows", "why_tests_cant": "tests hold one row object at a time; the effect depends on the order of rows and on reallocation", "anchors": ["include/core/matrix_sparse_new.hpp: SparseAccessor::operator=, Matrix_Sparse_Row data members"]}
{"id": "C82", "title": "Reading a missing element is reported", "statement": "Reading row[column] for a column with no stored element aborts with a message and does not read outside the row.", "quantifier": "for every storage, row and column, in debug and release builds", "why_tests_cant": "the read past the end of the row finds the first element of the next row most of the time", "anchors": ["include/core/matrix_sparse_new.hpp: SparseAccessor::operator const_reference_value"]}
{"id": "C83", "title": "Reversing Cuthill-McKee does not increase the profile", "statement": "The graph reordered by cuthill_mckee_reverse has a profile, the sum over vertices of the distance in the numbering to the lowest numbered neighbour, that is at most that of the graph reordered by cuthill_mckee from the same start.", "quantifier": "for every connected undirected graph, start vertex and correct sort", "why_tests_cant": "a statement about all graphs that relates the outcome of two orderings", "anchors": ["src/graph/reorder.cpp: cuthill_mckee, cuthill_mckee_reverse", "include/graph/adjacency_graph.hpp: reorder"]}
{"id": "C84", "title": "Cuthill-McKee bandwidth is bounded by level sizes", "statement": "After cuthill_mckee the numbers of two neighbours differ by less than the number of vertices at their two distances from the start.", "quantifier": "for every connected undirected graph, start vertex and correct sort", "why_tests_cant": "a bound over all graphs, in terms of distances", "anchors": ["src/graph/reorder.cpp: cuthill_mckee"]}
{"id": "C85", "title": "Gauss-Seidel and over-relaxation converge on positive definite systems", "statement": "On a system with a symmetric matrix A with positive diagonal, one forward in-place sweep with a factor strictly between 0 and 2 never increases the energy e^T A e of the error e, and leaves it unchanged only if the vector already was a solution. If A is positive definite, the system has exactly one solution, the energy of the error after k Gauss-Seidel sweeps or k sweeps of the over-relaxation solver is at most q^k times the first one with a factor q < 1 that depends on the matrix only, and both sequences of iterates converge to the solution from every start vector.", "quantifier": "All sizes, all symmetric matrices in sparse storage (positive diagonal for the first part, positive definite for the rest), all constant and start vectors, all factors in (0,2), all numbers of sweeps; real arithmetic", "why_tests_cant": "Convergence is a statement about all start vectors and the limit over all sweeps; a test runs finitely many sweeps on a few matrices", "anchors": ["src/solver/solver_fixed_point.cpp: forward_sweep, Solver_Fixed_Point::solve_system"]}
{"id": "C86", "title": "Rounding error of products in double precision", "statement": "Computed with IEEE doubles, the dot product of two vectors and every component of a dense or sparse matrix-vector product differs from the exact sum of the products of the operands by at most gamma_{n+1} times the sum of the absolute products plus n (1+u)^n 2^-1075, where u = 2^-53 and gamma_k = (1+u)^k - 1 (at most k u / (1 - k u)), whenever the result is finite; a finite result implies finite operands, and the dot product is finite when the exact absolute sum together with the bound is at most 2^1023.", "quantifier": "all lengths and shapes for which the product is defined, all doubles including subnormals, infinities and NaNs, both build modes", "why_tests_cant": "Rounding errors depend on the operands; tests compare a few values to a tolerance and cannot bound the worst case over all doubles and all lengths", "anchors": ["include/core/vector_operators.hpp: dot_product", "include/core/matrix_dense.hpp: operator*(Matrix_Dense, Vector_Dense)", "include/core/matrix_sparse.hpp: operator*(Matrix_Sparse, Vector_Dense)"]}
{"id": "C87", "title": "Backward error of the direct solver in double precision", "statement": "If factorise accepts a matrix of doubles, the factors L and U it stores satisfy |P A - L U| <= gamma_n |L||U| elementwise up to an underflow term, and a finite solution z returned by solve_system satisfies |P b - P A z| <= gamma_{3n} |L||U||z| elementwise up to an underflow term, where P is the stored permutation of the rows (the identity without pivoting).", "quantifier": "all sizes, all matrices and constant vectors of doubles, with and without pivoting, both build modes, every factorisation whose stored entries are finite and every finite solution", "why_tests_cant": "The bound is a statement about every rounding in the elimination and both substitutions for matrices of every size", "anchors": ["include/solver/direct_lower_upper_factorisation.hpp: factorise, solve_system"]}
{"id": "C88", "title": "Residual norms are reported truthfully in double precision", "statement": "When compute_residual returns a finite root mean square, there is a vector p within the rounding error of one product per row (as in C86) of the exact residual b - A x such that the reported largest residual is the maximum norm of p up to the factor (1+u)^4 and 2^-537 and the square of the reported root mean square is the mean of the squares of p up to the factor (1+u)^(n+10) and 2^-1074, in both directions.", "quantifier": "all sizes below 2^64, all sparse square matrices and vectors of doubles, both build modes", "why_tests_cant": "The stopping decision of the iterative solvers uses these numbers; a test compares them in a few cases, not over all doubles", "anchors": ["include/solver/solver_utilities.hpp: compute_residual"]}
{"id": "C89", "title": "Element access of graphs is checked as documented", "statement": "For every well formed graph and both builds: at(i), operator[](i) return the neighbours of vertex i in ascending order and degree(i) their number for every vertex i; front() and back() those of the first and last vertex; for any other index at() aborts in every build while operator[], degree(), and front()/back() of an empty graph abort in debug builds and are undefined otherwise; empty() holds exactly for graphs without vertex.", "quantifier": "all well formed graphs, all indices, both build modes", "why_tests_cant": "Tests probe a handful of indices of fixed graphs; the claim covers every index, including all beyond the end, for every graph.", "anchors": ["include/graph/adjacency_graph.hpp: at", "include/graph/adjacency_graph.hpp: operator[]", "include/graph/adjacency_graph.hpp: front", "include/graph/adjacency_graph.hpp: back", "include/graph/adjacency_graph.hpp: degree"]}
{"id": "C90", "title": "Printed graphs determine the graph", "statement": "The stream operator writes one line per vertex, neighbours separated by a comma and a space and a full stop for a vertex without neighbour; the subgraph operator adds one line 'local -> global (level)' per vertex. Two graphs with the same text have the same vertices and edges, and two subgraphs with the same text also the same parent vertices and levels.", "quantifier": "all pairs of well formed graphs and subgraphs", "why_tests_cant": "The separator depends on comparing each neighbour with the last one, which is right only because rows have no duplicates; that no two graphs print alike is a statement about all pairs of graphs.", "anchors": ["include/graph/adjacency_graph.hpp: operator<<", "src/graph/adjacency_subgraph.cpp: operator<<"]}
{"id": "C91", "title": "The direct solver accepts diagonally dominant and positive definite matrices", "statement": "Over the reals, factorise without pivoting accepts every matrix whose rows are diagonally dominant with a margin not below the factorisation tolerance, and every symmetric matrix whose quadratic form is at least the tolerance times the squared length; with dominant columns it accepts the matrix with and without pivoting, exchanges no rows, keeps the upper factor below the column sums and the multipliers of a column below 1 in sum. solve_system then returns the unique solution for every right hand side.", "quantifier": "all sizes, all such matrices, all right hand sides, both build types", "why_tests_cant": "The tests factorise a few fixed matrices; that no pivot of a whole class of matrices ever falls below the tolerance is a statement about all eliminations of all sizes.", "anchors": ["include/solver/direct_lower_upper_factorisation.hpp: factorise, solve_system"]}
{"id": "C92", "title": "Jacobi and Gauss-Seidel in double precision reach the solution up to rounding", "statement": "On every strictly row dominant sparse system of finite doubles (row sums at most q times the diagonal, q (1+u)^(n+3) < 1, diagonal at least lo, no overflow at the magnitudes involved) every sweep of Jacobi and Gauss-Seidel stays finite and after k sweeps every element is within floor + (q (1+u)^(n+3))^k E0 of the exact solution, where E0 bounds the start error above the floor and floor = ((1+u)^(n+3)-1) X + eta (1 + n (1+u)^(n+2)/lo), divided by 1 - q (1+u)^(n+3). Started at zero this needs no knowledge of the solution, which exists and is unique. The same bound holds for the vectors solve_system returns, with k the reported number of iterations.", "quantifier": "all sizes, all such systems of doubles, all start vectors in range, all iteration limits, both build types", "why_tests_cant": "The tests compare a converged vector of a few fixed systems with a tolerance; how rounding of every product, sum and division accumulates over any number of sweeps of any system is a statement about all executions.", "anchors": ["src/solver/solver_fixed_point.cpp: forward_sweep, solve_system", "include/solver/solver_fixed_point.hpp: solve_system"]}
{"id": "C93", "title": "Graph and subgraph constructors build what they are given or reject it", "statement": "A graph built from a non-empty list of edges without loops has exactly those edges (in either direction when undirected), each once, and as many vertices as its largest vertex plus one. The subgraph constructor rejects, in debug builds, partitions with a vertex that is not in the parent, with too many vertices or with repeated vertices; every partition it accepts gives a subgraph with one vertex per entry. (False in two ways: the empty edge list is read past its end, and a repeated vertex is noticed only when its entries are adjacent.)", "quantifier": "all edge lists, all parent graphs, all partitions, both build types", "why_tests_cant": "The tests construct a handful of graphs and two bad partitions; that only adjacent duplicates are noticed shows up only on partitions the tests do not contain.", "anchors": ["include/graph/adjacency_graph.hpp: Adjacency_Graph(initializer_list)", "src/graph/adjacency_subgraph.cpp: Adjacency_Subgraph"]}
{"id": "C94", "title": "Printed sparse matrices determine the matrix", "statement": "The stream operator of the sparse matrix writes the offsets, the column indices and the values, each on one line with a space after every item. Two matrices with the same text have the same number of rows and the same stored entries, provided different elements are written differently. (The number of columns is not determined.)", "quantifier": "all pairs of sparse matrices, all element printers that are injective and write no space or line feed", "why_tests_cant": "Injectivity of an output format is a statement about all pairs of matrices.", "anchors": ["include/core/matrix_sparse.hpp: operator<<"]}
{"id": "C95", "title": "solve() of the solver base classes returns usable convergence data", "statement": "solve() of Direct and of Solver_Iterative leaves the same solution vector as the derived solve_system and returns its convergence data. (The data cannot be read: it is a reference to a value that no longer exists.)", "quantifier": "all solver types, systems, settings and scalar types, both build types", "why_tests_cant": "Reading a dangling reference usually yields the right numbers in a test, as the stack slot has not been reused.", "anchors": ["include/solver/direct.hpp: solve", "include/solver/solver_iterative.hpp: solve"]}
{"id": "C96", "title": "Sparse arithmetic obeys the laws of matrix algebra", "statement": "Over every commutative semi ring the sparse product is associative, distributes over the sum from both sides, the sum is commutative and associative, with the results equal in every stored entry including explicit zeros, and products and sums of matrices applied to a vector equal the composition and the sum of the applications. (In doubles the sum is not associative.)", "quantifier": "all sizes, all well formed matrices of matching sizes, all vectors, all commutative semi rings, both build types", "why_tests_cant": "The tests multiply and add a few fixed matrices; that the in-place merging of rows and the row by row accumulation of products never produce a different sparsity pattern or value along a different bracketing concerns all patterns.", "anchors": ["src/core/matrix_sparse.cpp: operator*=, matrix_arithmetic", "include/core/matrix_sparse.hpp: operator+, operator*"]}
{"id": "C97", "title": "Multinode expansion moves parts to the nearest centres", "statement": "Given distances, every iteration of multinode_level_set_expansion takes as seed of each part the first of its vertices with the smallest largest distance to the other vertices of the part, and gives each vertex of the graph to a part whose seed is nearest; when it stops before the allowed number of iterations another iteration would change nothing. Empty lists, subgraphs of other graphs and zero parts are refused in both build types.", "quantifier": "every connected graph, every split into at least two non empty parts, every number of iterations", "why_tests_cant": "The tests check the result for a few graphs; that every iteration finds the centres and nearest seeds and that stopping early loses nothing concerns all graphs and splits.", "anchors": ["src/graph/partition.cpp: multinode_level_set_expansion, recursive_graph_bisection"]}
{"id": "C98", "title": "The direct solver in double precision on dominant rows", "statement": "On every system of finite doubles whose diagonal dominates its rows (|A_ii| minus the other absolute values of the row minus |B_i|/X is at least m) with tolerance + ((1+u)^(5n+4)-1) T <= m, where T bounds the row sums, factorise without pivoting returns true, no operation of the factorisation and of the two substitutions overflows, every element of the returned vector is a finite double of magnitude at most X and lies within 14 n ((1+u)^(3n)-1) T X / m of the solution of the system, which exists and is unique.", "quantifier": "all sizes, all such matrices and right hand sides of doubles, separate and shared solution vector, all tolerances, both build types", "why_tests_cant": "The tests factorise three or four fixed matrices; that no pivot of the rounded elimination falls below the tolerance and that nothing overflows on any dominant system is a statement about all executions.", "anchors": ["include/solver/direct_lower_upper_factorisation.hpp: factorise, solve_system"]}
{"id": "C99", "title": "Reserved storage and the validity of references", "statement": "Every graph, subgraph and sparse matrix holds its elements within its capacity; reserve leaves room for at least what was asked, keeps the contents and does not move an array that is large enough; a sequence of insertions moves an array exactly when the resulting number of vertices, edges, rows or non-zeros exceeds the capacity before, so reserving for the final object keeps all references into it valid; data() returns the same pointers until then, null for arrays without elements, swap exchanges contents and arrays, shrink_to_fit keeps the contents. The list constructor's own reserve suffices for its insertions.", "quantifier": "all well formed graphs, subgraphs and sparse matrices, all sequences of insertions, all growth policies of std::vector that give enough room, all sizes of std::size_t", "why_tests_cant": "Tests check capacity() after one reserve call; when an array moves depends on the whole sequence of insertions and on the library's growth policy, and the wrap-around needs 2^63 edges.", "anchors": ["include/graph/adjacency_graph.hpp: reserve, capacity, shrink_to_fit, data, swap, insert, Adjacency_Graph(initializer_list)", "include/graph/adjacency_subgraph.hpp: reserve, capacity, data", "include/core/matrix_sparse.hpp: reserve, capacity, insert"]}
{"id": "C100", "title": "Loops over a sparse matrix visit every entry once in row-major order", "statement": "The nested loops FOR_EACH(row, matrix) and FOR_ITER(element, row) terminate and visit every stored entry exactly once, rows ascending and columns ascending inside a row; one row walked backwards with -- gives the reverse order; assigning through the iterator during the loops replaces every value exactly once and changes neither pattern nor shape.", "quantifier": "for every well-formed sparse matrix and every function computing new values", "why_tests_cant": "tests loop over a few fixed matrices, and the end of a row is recomputed in every round from offsets that the body could disturb", "anchors": ["include/core/matrix_sparse.hpp: Iterator_Matrix_Sparse_Row, Iterator_Matrix_Sparse_Element, operator*=(scalar)", "src/core/matrix_sparse.cpp: begin, end, Matrix_Sparse_Row::begin, Matrix_Sparse_Row::end", "include/core/macros.hpp: FOR_EACH, FOR_ITER, FOR_ITER_REF"]}
{"id": "C101", "title": "Index loops visit exactly the range they are given", "statement": "FOR(i, n) runs its body for 0, 1, ..., n - 1 and not at all for n <= 0; FOR(i, a, b) runs through a, ..., b - 1 if a < b and through a, a - 1, ..., b + 1 otherwise, in that order and never for b. The same holds for the counter of compute_residual. All loops terminate without overflow.", "quantifier": "for all integral types of the bounds, all values they can hold and all loop bodies", "why_tests_cant": "Tests use small bounds of one type; overflow, wrap-around and endless loops need bounds of different types or beyond 2^31.", "anchors": ["include/core/macros.hpp: GET_MACRO, FOR_INDEX, FOR_INDEX_RANGE, FOR", "include/solver/solver_utilities.hpp: compute_residual"]}
{"id": "C102", "title": "Console messages name their level and place unambiguously", "statement": "The text in front of a console message consists of a level of fixed width, the file name without its directories and the line; it determines all three. Errors are written to the error stream only, all other messages to the output stream only, debug messages only with DISA_DEBUG; a level outside the enumeration ends the program.", "quantifier": "for all levels, all file names (with or without directories, containing any characters), lines and messages", "why_tests_cant": "No test reads the messages; file names containing the separators, or no slash (where npos + 1 wraps to 0), do not occur in the tests.", "anchors": ["include/core/macros.hpp: Log_Level, console_format, DEBUG, INFO, WARNING, ERROR"]}
{"id": "C103", "title": "Iterative solve in place", "statement": "solve_system(a, b, b), with one vector as unknown and constant, leaves in it what solve_system(a, x, b) leaves in x when started from x = b; in particular a run that stops by its tolerance has solved the system given.", "quantifier": "for all systems, limits and the three fixed point solvers", "why_tests_cant": "Tests pass two different vectors; the signature takes both by reference and nothing rejects the same vector twice.", "anchors": ["src/solver/solver_fixed_point.cpp: forward_sweep, solve_system", "include/solver/solver_utilities.hpp: Convergence_Data::update, compute_residual"]}
{"id": "C104", "title": "Stopping in double precision", "statement": "In double precision, on a strictly row dominant system of finite doubles: the result of an iterative solver whose reported residual is finite is finite and as close to the exact solution as the reported largest residual, the dominance and the rounding of one residual say; a run that stopped by its tolerance has residuals below the tolerance times those of its first sweep, up to rounding; and Jacobi and Gauss-Seidel do stop, within a number of sweeps computed from the rate, the tolerance and the first residuals, whenever the tolerance lies above the floor of the rounding errors.", "quantifier": "for all strictly row dominant systems of doubles of any size, start vectors, limits and tolerances; the error bounds for the three fixed point solvers", "why_tests_cant": "Tests compare one computed solution with a known one; they cannot show that a small reported residual always means a small error, nor that a loop over rounded numbers reaches its tolerance.", "anchors": ["include/solver/solver_utilities.hpp: is_converged, compute_residual, Convergence_Data::update", "src/solver/solver_fixed_point.cpp: forward_sweep, solve_system"]}
{"id": "C105", "title": "Arguments that refer to the object's own data", "statement": "Inserting into a sparse matrix or into CSR data, and resizing it, do with arguments passed by const reference what they would do with copies of the values at the call, even when an argument refers to the number of columns, to a column index or to a value of the object itself.", "quantifier": "for all well-formed sparse matrices and CSR data, and all references to a local variable, the number of columns, a column index or a value", "why_tests_cant": "Tests pass literals and loop counters. A reference that changes while the function runs needs a call such as insert(data, i, data.columns, v) or resize(2, it.i_column()), and whether the array is moved depends on its capacity.", "anchors": ["src/core/matrix_sparse.cpp: insert, insert_or_assign, resize", "include/core/matrix_sparse_data.hpp: insert, resize"]}
{"id": "C106", "title": "Several row objects of one matrix", "statement": "Client code that makes, copies and moves any number of row objects of one CSR data object and assigns elements through them in any order acts as on a finite map: every assignment sets the element of its row, also through an object that is out of date, every object keeps reporting its row, the number of columns and the number of elements of its row, and an object shows exactly the elements of its row from the time it was made or last assigned through until an element is inserted through another object. When such an insertion finds the arrays full, the other objects can no longer be read.", "quantifier": "for all well-formed CSR data, all programs of row object operations that use existing objects and rows, all growth policies of std::vector", "why_tests_cant": "Which uses of an old row object are valid depends on the order of operations and on capacities; tests use one row object at a time.", "anchors": ["include/core/matrix_sparse_new.hpp: Matrix_Sparse_Row, SparseAccessor", "include/core/matrix_sparse_data.hpp: insert_or_assign"]}
{"id": "C107", "title": "Constructors and resizing of dense vectors and matrices", "statement": "The default constructors give zeros of the template sizes. Construction from a list gives the elements of the list, construction from a lambda its values; a debug build stops when the size of a static object differs from what is asked for, or when the rows of a list differ in length. resize(rows, columns) keeps the elements that are still inside the matrix and fills up with zeros; after every constructor and resize the matrix is rectangular.", "quantifier": "for all element types, template sizes, lists, lambdas that return normally, and requested sizes, debug and release builds", "why_tests_cant": "The tests construct objects of two to five elements of matching sizes; what happens for other sizes, and to rows added by the inherited resize, is not tried.", "anchors": ["include/core/vector_dense.hpp: Vector_Dense constructors", "include/core/matrix_dense.hpp: Matrix_Dense constructors, resize"]}
{"id": "C108", "title": "Solver objects can be used again", "statement": "After any sequence of solves and factorisations on one Solver object, a solve returns exactly what it returns on a new solver of the same configuration on which only the last factorisation was made: no data of earlier systems leaks into the solution, the convergence data or the outcome. The initial value and size of the solution vector of a direct solve are irrelevant. Dense systems can be solved through the interface of Solver.", "quantifier": "for all configurations, all histories of calls that return, all later systems (also those that fail), all scalars without any laws", "why_tests_cant": "The tests use a new solver per system; the working vector of the Jacobi solver and the pivots and factors of the direct solvers persist in the object.", "anchors": ["include/solver/solver.hpp: Solver::solve", "src/solver/solver_fixed_point.cpp: solve_system (jacobi)", "include/solver/direct_lower_upper_factorisation.hpp: factorise, solve_system"]}
{"id": "C109", "title": "Sparse and dense arithmetic agree", "statement": "Whenever a sparse matrix and a dense matrix denote the same matrix (absent entries read as zero), the sparse and the dense operators +, -, *, matrix-vector product and scaling succeed together and their results again denote the same matrix. In exact arithmetic the results are equal; in double precision they are the same numbers (up to the sign of zero) provided the factors of products are finite.", "quantifier": "all pairs of a well-formed sparse matrix and a dense matrix denoting the same matrix, all shapes, all commutative (semi) rings, all doubles including overflow of partial sums, both build modes", "why_tests_cant": "The sparse operators visit only stored entries in storage order, the dense ones visit all entries; agreement of a sum that skips terms with one that adds zero terms holds for every sparsity pattern and, in floating point, depends on how zeros, infinities and NaN propagate, which finitely many test matrices cannot establish.", "anchors": ["include/core/matrix_sparse.hpp: operator+=, operator-=, operator*=, operator*", "src/core/matrix_sparse.cpp", "include/core/matrix_dense.hpp: operator+, operator-, operator*"]}
{"id": "C110", "title": "Geometry in double precision", "statement": "In double precision the angle of two finite vectors of two or three components, whose sums of squares are between 2^-1000 and 2^1000, calls std::acos with a valid number from [-1, 1] that differs from the exact cosine by at most 32 unit roundoffs, although the computed inner product of the unit vectors can exceed 1; each finite component of a cross product and of the tangential and orthogonal projections obeys an explicit error bound; exchanging the factors of a cross product changes exactly the signs, up to the sign of zeros. A vector outside the range, such as (2^600, 0) or (2^-600, 0), is reported as orthogonal to itself.", "quantifier": "All vectors of doubles, all static and dynamic sizes, both builds, any std::acos, std::pow and root functions", "why_tests_cant": "The rounding of every component and the clamp depend on all bits of the operands; tests compare a few angles with a tolerance.", "anchors": ["include/core/vector_operators.hpp: angle, cross_product, projection_tangent, projection_orthogonal, unit"]}
{"id": "C111", "title": "Dense vectors and matrices of integers", "statement": "For every integral element type the sums, differences, multiples and quotients of vectors are the exact integers wrapped into the type, and undefined exactly when a signed operation overflows. Inner products, means, norms, sums and products of matrices are the exact integers as long as the magnitudes stay below 2^53 and the results are values of the type. A matrix is multiplied and divided by the integral part of the scalar only. The unit vector of every vector not of length one is zero and its angle with any vector is the one of cosine zero. Beyond 2^53 sums and products of 64 bit matrices are wrong. The inner product of vectors of different sizes is refused by the debug build; the release build reads past the end of a shorter second vector and leaves out the rest of a longer one.", "quantifier": "All built-in integral types, sizes, static and dynamic, both builds, any std::acos", "why_tests_cant": "Overflow, truncation and the detour through double depend on the magnitudes; the tests only instantiate double.", "anchors": ["include/core/vector_dense.hpp: operator*=, operator/=, operator+=, operator-=, operator+, operator-", "include/core/matrix_dense.hpp: Matrix_Dense(lambda), operator*=, operator/=, operator+=, operator+, operator-, operator*", "include/core/vector_operators.hpp: lp_norm, mean, dot_product, unit, angle"]}
{"id": "C112", "title": "Parts grown from seeds are connected", "statement": "Every vertex coloured by level_expansion is joined to the seed of its colour by a shortest walk through vertices of that colour, so that the parts the multinode expansion makes of a connected graph are connected. The bisection of a connected graph into two takes the vertices within half the largest distance of a peripheral vertex as the first part; lines are cut into connected halves. (Only the first part of a bisection is connected in general; every star with three or more leaves leaves all but one of them, without an edge, in the second part.)", "quantifier": "All well-formed graphs, seed lists, numbers of parts and iterations, both builds, every hash function", "why_tests_cant": "Connectedness of parts depends on the order in which ties between seeds are resolved in every round; the tests use a few fixed meshes and do not look at the parts of a star.", "anchors": ["include/graph/graph_utilities.hpp: level_expansion", "src/graph/partition.cpp: multinode_level_set_expansion, recursive_graph_bisection"]}
{"id": "C113", "title": "Element iterators of a sparse row", "statement": "A loop from begin() to end() of a row of CSR_Data meets exactly the stored elements of that row once each, in ascending column, and backwards in descending column. Writing through the elements changes the values of that row as told and nothing else. Increment and decrement undo each other, the postfix forms return the old iterator, and iterators compare equal exactly when they are at the same position. As the language has it, end() itself is undefined for every row, because it dereferences the end of a span.", "quantifier": "All well-formed matrices, all rows, all value types and all functions from column and value to value.", "why_tests_cant": "Tests iterate over a few rows of one matrix and compare with literals; that the iterators step through two arrays in unison for every row, never leave them, and that the address arithmetic of end() is undefined, cannot be seen from a run.", "anchors": ["include/core/matrix_sparse_new.hpp:55-290", "include/core/matrix_sparse_new.hpp:449-483"]}
{"id": "C114", "title": "The direct solver inverts the product", "statement": "Over any field, after a successful factorisation the direct solver returns the vector a product of the matrix was made from; the product of the matrix with a solution is the constant vector; the solution does not depend on pivoting; it is linear in the constant vector; solving with a product of two matrices is solving with the one and then the other.", "quantifier": "All fields, all sizes, all matrices that factorise, all vectors, static and dynamic operands.", "why_tests_cant": "Tests compare the solutions of a few systems with literals; that the library's product, sum and scaling and its solver belong together for every matrix needs a proof through all of them.", "anchors": ["include/solver/direct_lower_upper_factorisation.hpp:140-228", "include/core/matrix_dense.hpp:456-465", "include/core/matrix_dense.hpp:528-541", "include/core/vector_dense.hpp:290-340"]}
{"id": "C115", "title": "Sequences of graph operations compose", "statement": "Renumbering a graph by p and then by q gives the graph renumbered once by the composed permutation. Renumbering keeps every distance: the level traversal of the renumbered graph is the renumbered level traversal. The graph built from a list of edges depends only on the set of edges, not on order or repetition; two insertions commute; insertion and renumbering commute when the edge is renumbered too. erase_if twice is erase_if once, with the second set read in the old numbers; erase_if of a tail is resize; erase_if leaves the graph of the Adjacency_Subgraph built on the vertices that remain; a subgraph of a subgraph is a subgraph of the graph.", "quantifier": "all well formed graphs, directed and undirected, all permutations, edge lists, vertex predicates and vertex lists of any length", "why_tests_cant": "Each test checks one operation on one small graph; an equation between different sequences of operations on every graph is out of reach of any finite set of runs.", "anchors": ["include/graph/adjacency_graph.hpp: insert, resize, erase_if, reorder, constructor from an edge list", "src/graph/adjacency_subgraph.cpp: constructor", "include/graph/graph_utilities.hpp: level_traversal"]}
{"id": "C116", "title": "Factors stay inside the profile of the matrix", "statement": "Without pivoting, an element of the factors outside the profile of the matrix (left of the first element of its row, or above the first element of its column) is zero, exactly over a field and in double precision whenever the factors are finite. So a matrix with the pattern of a graph fills at most the profile of the graph, and a matrix numbered by cuthill_mckee keeps its factors within the sizes of two adjacent levels. With pivoting the profile is left (witness), and what remains is a band: p+q diagonals above the main one and at most p multipliers in each column.", "quantifier": "all matrices of any size, all profiles, any field; all doubles; all graphs and all numberings by cuthill_mckee; all real banded matrices with pivoting", "why_tests_cant": "The tests factorise one or two small full matrices; none looks at the zeros of the factors of a sparse matrix, and no number of runs covers all patterns.", "anchors": ["include/solver/direct_lower_upper_factorisation.hpp:142-193 factorise", "src/graph/reorder.cpp:98 cuthill_mckee"]}
{"id": "C117", "title": "Sweeps and the numbering of the equations", "statement": "A sweep in place (Gauss-Seidel, SOR) may visit equations that are not coupled to each other in any order without changing a single bit of the result: any two orders that visit the colours of a colouring one after the other agree, and a matrix numbered by greedy_multicolouring can be swept colour by colour. Every Jacobi iterate of a renumbered system is the renumbered iterate. A sweep in place of a renumbered system is the sweep of the original one that visits the equations in the order of their new numbers, so the descending sweep is the ascending sweep of the mirrored system; it does depend on the numbering (example).", "quantifier": "all square systems with stored diagonal, all colourings, all orders, all scalars without any law (colours) and all fields (renumbering), all permutations, any number of Jacobi steps", "why_tests_cant": "No test runs a solver on two numberings of one system; the equality of whole families of sweeps for every matrix cannot be reached by examples.", "anchors": ["src/solver/solver_fixed_point.cpp:29-53 forward_sweep, backward_sweep", "src/solver/solver_fixed_point.cpp:63-93 solve_system", "src/graph/reorder.cpp:168-216 greedy_multicolouring"]}
{"id": "C118", "title": "Traversals of trees, lines and grids", "statement": "On every tree pseudo_peripheral_vertex finds an end of a longest path, from whatever vertex it starts. On create_graph_line the levels are the distances of the numbers, the search ends at an end of the line, and cuthill_mckee numbers the line in its own order, in reverse, or from the default start in its own order. On create_graph_structured the levels are the distances along rows and columns, the search ends in a corner, the numbering from there keeps neighbours less than 2 n - 1 apart, and the direct solver keeps that band in its factors.", "quantifier": "all trees, all starts, all line lengths and grid sizes of at least two, all ways to sort equal degrees, all matrices on the grid over every field", "why_tests_cant": "Tests run the search on a few fixed graphs; that a greedy search reaches the true diameter of every tree, or a corner of every grid, is a statement over infinite families.", "anchors": ["include/graph/graph_utilities.hpp:49-100 level_traversal", "include/graph/graph_utilities.hpp:156-190 pseudo_peripheral_vertex", "include/graph/generator.hpp:48-110 create_graph_line, create_graph_structured", "src/graph/reorder.cpp:98-150 cuthill_mckee"]}
{"id": "C119", "title": "Solvers with signs changed or data scaled", "statement": "In doubles, changing the sign of every matrix value, of the unknowns, or of both, and of the right-hand side accordingly, changes the signs of what Jacobi, Gauss-Seidel, SOR and the direct solvers return and nothing else: the same call fails in the same way, and iteration counts and all residuals are bit for bit equal. The sign of zeros in the data never matters beyond the sign of zeros in the result. In exact arithmetic scaling the matrix and the unknowns scales the result and leaves the number of iterations and the normalised residuals as they are.", "quantifier": "all sparse matrices (also malformed ones), all vectors, infinities and NaNs included, all solver objects, limits and iteration counts; all non-zero real scale factors", "why_tests_cant": "Tests solve a handful of systems once; that the whole course of every solve is odd in its data, for every double, is a relation between two runs no single run shows.", "anchors": ["src/solver/solver_fixed_point.cpp:29-116 forward_sweep, solve_system", "include/solver/solver_utilities.hpp:163-258 is_converged, update, compute_residual", "include/solver/direct_lower_upper_factorisation.hpp:203-229 solve_system", "include/solver/solver.hpp:53-90 solve"]}
{"id": "C120", "title": "Writing through rows, and what a subgraph shows of its parent", "statement": "An assignment through the row of a graph or subgraph (operator[], front(), back()) replaces that entry and nothing else: vertices, number of edges and all degrees stay, whatever is assigned and however often. A directed graph stays valid exactly when the row stays strictly ascending, in range and free of the vertex itself. An undirected graph stays valid only when the value does not change; otherwise contains() finds the old and the new edge in one direction only. A subgraph whose row was changed still claims its parent although it is no longer the subgraph of it. The members of a subgraph that look at rows report the parent's edges between the vertices that are present: contains() agrees with the parent, degree() counts the neighbours that are present, never exceeds the parent's and equals it below the outermost level. swap() exchanges two subgraphs and shrink_to_fit() keeps the contents.", "quantifier": "all graphs and subgraphs, all rows, positions and values, all sequences of assignments, both builds", "why_tests_cant": "The claim ranges over every graph and every assignment, including the ones that leave a graph invalid, which a test would only find for the graphs it tries.", "anchors": ["include/graph/adjacency_graph.hpp: operator[], front, back", "include/graph/adjacency_subgraph.hpp: operator[], front, back, empty, size_edge, size, contains, degree, swap, shrink_to_fit"]}
{"id": "C121", "title": "Sweeps that keep the order of vectors, in double precision", "statement": "For matrices with finite entries, positive on the diagonal and not positive beside it, the sweeps of Jacobi and Gauss-Seidel (and any ascending or descending sweep with a factor between 0 and 1) keep the order of vectors in the double precision arithmetic that is executed: of three starting vectors and right hand sides, one between the others, the results lie one between the others wherever the outer ones are finite, and the inner one is then finite. It follows that the iterates of a system with data that are not negative are not negative; that iterates which rise (fall) at the first sweep rise (fall) for ever; that from a vector raised by a sweep and a vector above it lowered by a sweep the two runs close in, every run from between stays between, no value overflows, and both runs stop changing after finitely many sweeps; and that the vector returned by solve_system lies between the two. In exact arithmetic runs started below and above a solution stay below and above it. From a vector raised and one lowered by a sweep of Jacobi, Gauss-Seidel never falls behind: every run of it from between them stays between the two runs of Jacobi.", "quantifier": "All sizes, all stored patterns, all matrices with these signs, all double precision right hand sides and starting vectors including those whose runs overflow, any number of sweeps, both builds.", "why_tests_cant": "Rounding happens at every operation and the claim is about each of the doubles of every iterate for every start; a test sees a few starts, and tolerances hide an order violated in the last place.", "anchors": ["src/solver/solver_fixed_point.cpp:29-53 forward_sweep, backward_sweep", "src/solver/solver_fixed_point.cpp:63-93 solve_system"]}
{"id": "C122", "title": "Relaxed sweeps contract on systems that dominate after scaling, and the limit of SOR", "statement": "In exact arithmetic, let the diagonal of a sparse square matrix dominate with a factor q after its columns are multiplied by some positive v. One sweep, ascending or descending, in place or into another vector, with the relaxation factor w, maps an error at most e v to one at most (|w| q + |1 - w|) e v (in place provided that factor is at most one). Hence Jacobi and GaussSeidel lose the factor q per sweep and the solver SOR, which always uses 3/2, the factor (1 + 3 q)/2 when q <= 1/3; if q < 1 the system has exactly one solution and Jacobi and GaussSeidel converge to it from every start, SOR too if q < 1/3. The third is sharp: for every c > 1/3 the iterates of SOR on x + c y = 0, - c x + y = 0 grow geometrically. If the columns dominate with a factor q < 1, the sum of the errors weighted with the diagonal is below q^k times the first one after k sweeps of Jacobi and below q^k/(1 - q) times it after k sweeps of GaussSeidel.", "quantifier": "for all sizes, matrices, right-hand sides, starts, relaxation factors, numbers of sweeps, positive scalings and dominance factors; both directions, both kinds of update", "why_tests_cant": "Tests run one or two matrices with a configured number of sweeps; that convergence holds for a class of matrices from every start, and that it stops exactly at a factor of one third for the fixed 1.5, cannot be sampled.", "anchors": ["src/solver/solver_fixed_point.cpp:29-53 forward_sweep, backward_sweep", "src/solver/solver_fixed_point.cpp:63-116 solve_system"]}
{"id": "C123", "title": "Sweeps on weakly dominant systems, connected graphs, lines and grids", "statement": "In exact arithmetic, let no diagonal element of a sparse square matrix be smaller in size than the sum of the others of its row, and let elements that are not zero lead from every row to one whose diagonal is larger. Then some positive scaling of the columns makes every row dominate, the system has exactly one solution, and Jacobi and GaussSeidel converge to it from every start; SOR too if the matrix is symmetric with a positive diagonal, and it is then positive definite. This holds for every matrix with an element for each edge of a connected graph, directed or not, with one dominating row, in particular for the matrix of a connected graph that is held down at a vertex. On the line of create_graph_line with 2 on the diagonal and on the grid of create_graph_structured with 4, with -1 for the edges, Jacobi and GaussSeidel lose the factor 1 - 4/(n + 1)^2 per sweep in an explicit weighted norm, and SOR converges. Without any dominating row the sweeps of Jacobi can alternate for ever.", "quantifier": "for all sizes, matrices, graphs, right-hand sides, starts and numbers of sweeps", "why_tests_cant": "The tests solve one small system with a configured number of sweeps; convergence on all connected graphs and a rate for every size are statements about infinitely many systems.", "anchors": ["src/solver/solver_fixed_point.cpp:29-53 forward_sweep", "src/solver/solver_fixed_point.cpp:63-116 solve_system", "include/graph/generator.hpp create_graph_line, create_graph_structured"]}
{"id": "C124", "title": "The direct solver keeps signs and order in double precision", "statement": "For a matrix of doubles with no positive entry beside the diagonal, the factors computed without pivoting have no positive entry beside the diagonal either (when they are finite and the pivots positive), and the upper factor never exceeds the matrix. With such factors solve_system, with every rounding, keeps the order of right hand sides: between two finite results every result is finite and lies between them; a right hand side without negative elements has a result without negative elements. Strict row dominance with a margin above the rounding suffices for such factors. A tridiagonal matrix that is only weakly dominated (2M <= diagonal, M a double) is factorised at every size, whatever its signs, with pivots at least M and multipliers at most one, and its solution is bounded by (1+2^-53)^(2n) n^2 times the right hand side.", "quantifier": "for every size, every matrix of doubles of that kind, every right hand side (including infinities and NaN for the order), with DISA_DEBUG on or off", "why_tests_cant": "A test compares a few solutions within a tolerance. That no rounding ever reverses the order of two solutions or takes a pivot of the Poisson line below its bound at any size is a statement about all inputs.", "anchors": ["include/solver/direct_lower_upper_factorisation.hpp: factorise, solve_system"]}
{"id": "C125", "title": "Norms, means and inner products in double precision", "statement": "For every vector of doubles: the maximum norm of finite elements is exact; the norms p = 0..3 grow with the magnitudes of the elements and do not change when every sign is turned; the 1-norm is within (1+2^-53)^n - 1 of the sum of magnitudes and bounds every element; the 2-norm is within (1+2^-53)^(n+3) of the exact one while the sum of squares lies between 2^-1000 and 2^1000. The mean is within ((1+2^-53)^(n+1) - 1) times the mean magnitude (plus 2^-1075) of the exact mean, keeps the order of vectors and turns with the signs; inner products do not depend on the order of the two vectors and are not negative of a vector with itself. A NaN anywhere should make the maximum norm NaN and a mean should lie between the smallest and largest element and be finite; neither holds.", "quantifier": "for every size, every vector of doubles (including infinities and NaN where stated), every template size, with DISA_DEBUG on or off", "why_tests_cant": "Tests compare a few norms and means within a tolerance; they cannot show that no rounding ever makes the norm of a larger vector smaller, nor bound the error at every length.", "anchors": ["include/core/vector_operators.hpp: lp_norm, mean, dot_product"]}
{"id": "C126", "title": "Levels of traversals are distances", "statement": "For every graph the levels that level_traversal reports form a distance: zero exactly at the start, symmetric on undirected graphs, with the triangle inequality, growing by at most one along an edge. From several sources the levels are the smallest of those from each. Inserting an edge gives exactly the shorter of the old way and the ways along the new edge; erasing vertices never brings the others closer. No two vertices of a connected graph are further apart than twice the eccentricity of the result of pseudo_peripheral_vertex. That its result is peripheral is false.", "quantifier": "for every graph, directed or not, every start and every pair of vertices, every edge and every set of erased vertices, with DISA_DEBUG on or off", "why_tests_cant": "Tests compare level lists of a few small graphs; relations between runs from different starts and on changed graphs hold or fail for all graphs.", "anchors": ["include/graph/graph_utilities.hpp: level_traversal, pseudo_peripheral_vertex", "include/graph/adjacency_graph.hpp: Adjacency_Graph::insert, erase_if"]}
{"id": "C127", "title": "Approximate comparisons measured in real numbers", "statement": "scalar_max is the largest finite double, scalar_epsilon the distance from 1 to the next double, and the default tolerances are 2^-46 and 2^-36. For finite doubles is_nearly_equal, computed with every rounding, says true only when the distance is at most the larger of the absolute tolerance and the relative tolerance times the sum of the magnitudes, up to (1+2^-53)^4, and says false only when the numbers differ and the distance is at least that, up to (1+2^-53)^5. Compared with zero only the absolute tolerance counts, exactly. An infinity is nearly equal only to itself. Larger tolerances accept more. Changing both signs changes no answer and exchanges is_nearly_less with is_nearly_greater. The relation is not transitive.", "quantifier": "for all doubles (finite ones for the measured statements), all relative tolerances from 0 (the machine epsilon in debug builds) to 1 and all absolute tolerances, with DISA_DEBUG on or off", "why_tests_cant": "Tests compare a few pairs. How the rounding of the sum, the product and the difference moves the border of the answer, and that no tolerance makes an infinity equal to a finite number, are statements about all pairs and tolerances.", "anchors": ["include/core/scalar.hpp is_nearly_equal, is_nearly_less, is_nearly_greater", "include/core/scalar.hpp scalar_max, scalar_epsilon, default_absolute, default_relative"]}
{"id": "C128", "title": "Successive bisections, and the parts of a line", "statement": "recursive_graph_bisection with one part more replaces the first of the largest parts by two and leaves every other part as it is: the first of the two takes its place, the second is appended, together they have exactly its vertices and both are non-empty when it has two or more. When the part is connected, the first of the two consists of the vertices within half the largest distance, measured inside the part, of a vertex whose largest distance is at least that of the part's first vertex. A line of n vertices cut into any number k <= n of parts gives parts of consecutive vertices, none with more than twice the vertices of another and one more; cut into 2^j parts the sizes are the quotient of n by 2^j or one more.", "quantifier": "for every undirected graph with at least one vertex and as many stored neighbours as vertices, every number of parts (below the number of vertices in debug builds), every line length and every power of two", "why_tests_cant": "Tests cut one small graph into a few parts. That parts are only ever refined and that lines of every length stay balanced for every number of parts are statements about all graphs, lengths and numbers.", "anchors": ["src/graph/partition.cpp recursive_graph_bisection", "include/graph/generator.hpp create_graph_line"]}
{"id": "C129", "title": "The laws of dense arithmetic", "statement": "The sums, products and scalings of dense vectors and matrices obey the laws of linear algebra when the scalars do: (A B) C and A (B C), (A B) x and A (B x), A (B + C) and A B + A C, (A + B) C and A C + B C, s (A B) and (s A) B and A (s B), A (x + y) and A x + A y, A (s x) and s (A x), (A + B) x, (s A) x and the dot product (symmetric, additive, homogeneous) all come out as the same object, and the product of the transposed matrices in the other order is the transposed product. Of these the double arithmetic keeps, bit for bit: sums and dot products do not depend on the order of their two operands, multiplying or dividing by one changes nothing (infinities, signed zeros and not-a-numbers included), v - v is +0 in every component for finite v, and multiplying by a power of two is exact and undone by dividing when no component overflows or becomes subnormal. The order of three summands matters, and dividing by 10 is not multiplying by a tenth.", "quantifier": "for every commutative semi-ring and all matrices and vectors of fitting sizes (dynamic objects), both build modes; for all doubles in the second half", "why_tests_cant": "Tests evaluate a handful of products of small fixed matrices; that the loops obey the laws for all sizes, all scalars and both build modes cannot be enumerated, and bit-for-bit equality in doubles holds for 2^64 values of each component.", "anchors": ["include/core/matrix_dense.hpp operator*, operator+", "include/core/vector_dense.hpp operator+, operator*, operator/", "include/core/vector_operators.hpp dot_product"]}
{"id": "C130", "title": "Indices at the top of size_t", "statement": "Adjacency_Graph::resize and insert and Matrix_Sparse's shape constructor, resize and insert compute sizes as index + 1 in std::size_t, whose largest value M the library itself uses as the index of nothing. Below the top (edges whose end points are below M - 1, fewer than M vertices or rows, rows below M - 1, columns below M) the sums are exact and the functions are those of the other properties. At the top a call is expected to fail by an exception or to succeed: instead an edge with an end point M or M - 1 is written through the adjacency list of a vertex that is not there (after the graph has been erased, or its offsets), resize(M) leaves a graph without vertices whose adjacency is still there, an entry in row M or M - 1 erases the matrix (or its offsets) and then uses the row that is not there, an entry in column M is stored in a matrix that then has zero columns, and a matrix of M rows has none.", "quantifier": "for every M > 0, every well formed graph and matrix, all indices, both build modes, any value of the stray pointer", "why_tests_cant": "No test uses an index near 2^64: the failure needs exactly the two or three largest values of a 64-bit index, and the safe range below them cannot be enumerated.", "anchors": ["include/graph/adjacency_graph.hpp insert, resize", "src/core/matrix_sparse.cpp insert, resize", "include/core/matrix_sparse.hpp constructor (row, column)"]}
{"id": "C131", "title": "CSR_Data with other index types", "statement": "CSR_Data and its free functions take the index type as a template parameter (the tests use std::size_t and int). As long as the numbers of rows, columns and entries fit into the type (entries into the signed type of its width), resize, insert and lower_bound compute exactly what they compute with unbounded indices, for signed and unsigned types and in both build modes. With a signed type resize to zero columns leaves no entry; with every unsigned type, std::size_t included, it keeps every entry of the remaining rows in a matrix without columns. Negative indices stop the debug build; in the release build a negative row is undefined and a negative column is silently stored. Resizing a matrix whose offset at the new last row was set to a negative number throws. A matrix as full as the type can count accepts one entry more: undefined for a signed type, a last offset of zero for an unsigned one. For an unsigned type a column resize is undefined once the first row holds more than half of what the type can count. The numbers of rows, columns and entries are reported correctly when they fit into the type; with one entry more than the type can count the number reported is the least one of the type.", "quantifier": "for every integral type at least as wide as int, every well formed matrix, all arguments, both build modes", "why_tests_cant": "The tests use two index types and matrices of at most a dozen entries; the ranges of the types and the matrices at their limits cannot be enumerated.", "anchors": ["include/core/matrix_sparse_data.hpp resize", "include/core/matrix_sparse_data.hpp insert", "include/core/matrix_sparse_data.hpp lower_bound", "include/core/matrix_sparse_data.hpp:110-136 size_row, size_column, size_non_zero"]}
{"id": "C132", "title": "Sweeps are splittings of the matrix", "statement": "In exact arithmetic, on a sparse square matrix without zeros on the diagonal: the values after a sweep, ascending or descending, in place or into another vector, with any relaxation factor w, are the only ones with A_ii z_i + w sum over new j of A_ij z_j = w (b_i - sum over old j of A_ij x_j) + (1 - w) A_ii x_i. Systems with one matrix may be superposed before or after any number of sweeps of Jacobi, GaussSeidel and SOR. Multiplying equations by factors that are not zero leaves the sweeps as they are, and measuring unknowns in other units changes only the units. A solve whose start is moved by d and whose constant vector by A d takes the same course: same outcome, same convergence data, and the solution moved by d. Over the reals, whether the iterates converge to a solution depends on the first error and not on the constant vector, and convergence from the n unit vectors with constant vector zero is convergence from every start on every solvable system, whose solution is then the only one.", "quantifier": "for every field, matrix without zeros on the diagonal, vectors, factor, number of sweeps, limits; both build modes", "why_tests_cant": "Tests run the solvers on one system from one start; that iterates of all systems with one matrix are related can only be proved.", "anchors": ["src/solver/solver_fixed_point.cpp:29-116 forward_sweep, backward_sweep, solve_system", "include/solver/solver_utilities.hpp:195-258 update, compute_residual"]}
{"id": "C133", "title": "Renumbering before a direct solve", "statement": "Over any field, with or without pivoting: when equations and unknowns are numbered anew by two permutations and the matrix so arranged is factorised, solve_system of the arranged right-hand side gives, read at the new numbers, the one solution of the original system; whether the solver without pivoting accepts a matrix does depend on the numbering. For a positive definite matrix with elements only on the diagonal and the edges of a connected graph, numbered by cuthill_mckee, the solver without pivoting always accepts it, its pivots are at least the smallest value of the quadratic form, its factors stay within the band of the levels, and the solution can be read back. On create_graph_structured with 4 on the diagonal and -1 for the edges, from any vertex, pseudo_peripheral_vertex, cuthill_mckee, the factorisation by a new solver (n < 2^25) and the solve succeed, with band 2 n - 1 and pivots of at least 16/(n + 1)^2.", "quantifier": "for every field, size, permutations, matrix and right-hand side; every connected graph, start vertex and sorting function; every grid size; both build modes", "why_tests_cant": "No test numbers a system with the graph library before solving it; the success of the factorisation for every grid size and every admissible order of ties cannot be enumerated.", "anchors": ["include/solver/direct_lower_upper_factorisation.hpp: factorise, solve_system", "src/graph/reorder.cpp:98-150 cuthill_mckee", "include/graph/graph_utilities.hpp:156-190 pseudo_peripheral_vertex", "include/graph/generator.hpp:48-110 create_graph_structured"]}
{"id": "C134", "title": "What the factors are and which matrices are refused", "statement": "Over any field, after a successful factorisation the product of the two factors kept in the matrix is the matrix with its rows in the order of the pivots, a permutation, and no other pair of a unit lower and an upper triangular matrix has this product. Without pivoting, and for scalars without any laws such as doubles, the leading blocks of an accepted matrix are accepted and their factors are the leading blocks of the factors. The upper factor of a symmetric matrix is the transposed lower one with its rows scaled by the pivots; triangular matrices keep their form. The product of the pivots is the determinant of the rows in the order of the pivots, hence that of the matrix up to sign, and without pivoting the first k pivots give the k-th leading minor. Over the reals: the solver without pivoting accepts a matrix exactly when every leading minor is at least the tolerance times the one before; an accepted matrix has a determinant of at least tolerance^n; a refusal with pivoting shows a vector with an element 1 that the matrix maps to one below 1025/1024 tolerance + 2^-46, so every matrix that maps no such vector there is accepted.", "quantifier": "for every field, size, matrix, tolerance; with and without pivoting; both build modes", "why_tests_cant": "Tests compare the solution of a few systems; they look neither at the factors nor at the border between accepted and refused matrices, which is a statement about all matrices.", "anchors": ["include/solver/direct_lower_upper_factorisation.hpp:142-193 factorise"]}
{"id": "C135", "title": "Pivoting in double precision", "statement": "With IEEE doubles, pivoting and a tolerance t of at least 2^-46 (the default), for every square matrix of finite doubles up to M with 8 growth(t)^n M <= 2^1023, where growth(t) = 2 + 2^-29 + 2^-43/t: the row picked holds, up to the tolerances of is_nearly_greater, the largest element of its column; the factorisation ends; if it succeeds every stored element is finite, the multipliers stay below 1 + 2^-30 + 2^-44/t, row i of the upper factor below growth(t)^i M, no diagonal element is below t, and the product of the factors differs from the permuted matrix by at most a bound known in advance. If it is refused the matrix maps some vector w with a component 1 to less than t (1 + 2^-34) + 2^-45 plus that bound times the sum of |w|; so a matrix that is well conditioned compared to the tolerance, for one every matrix in which each column dominates a row, is accepted. Under a size condition on the right side both substitutions stay finite, the residual in every equation is below a bound known in advance, and the distance to the exact solution is that bound over the conditioning.", "quantifier": "for every size, matrix, right side, tolerance of at least 2^-46; both build modes", "why_tests_cant": "Rounding, growth and overflow depend on all elements together; a test sees the rounding of one matrix.", "anchors": ["include/solver/direct_lower_upper_factorisation.hpp:142-193 factorise", "include/solver/direct_lower_upper_factorisation.hpp:204-229 solve_system", "include/core/scalar.hpp:137-141 is_nearly_greater"]}
{"id": "C136", "title": "Vectors and matrices of floats", "statement": "With elements of type float (IEEE binary32) and at most 2^51 of them, all finite: lp_norm<2> of a vector that is not zero is a positive finite double within a relative error of (1+u)^(n+3), u = 2^-53, whatever the exponents; it is zero for a zero vector; lp_norm<1> and mean are finite with the error of a double sum, lp_norm<0> is exact. dot_product, which rounds its products to floats, is finite and within (1+2^-24)(1+u)^n - 1 of the sum of the absolute products plus a multiple of 2^-150 when no product exceeds 2^127; it is infinite for v.v when an element reaches 2^64 and zero when all stay below 2^-75, although the length is a representable number. unit gives v/|v| with an error of about two float roundings when |v| >= 2^-126, zero for zero, and infinities and NaNs when 0 < |v| <= 2^-129. Scaling a matrix by a double gives the product with two float roundings as long as the factor is a float; a factor beyond 2^128 leaves no finite element, one below 2^-150 only zeros (infinities or NaNs on division), whatever the products. The lambda constructor of a matrix keeps every float. The product of a square matrix and a vector has the error of the inner product and one more rounding. The inner product of vectors of different sizes is refused by the debug build; the release build reads past the end of a shorter second vector and leaves out the rest of a longer one. Sums and differences of vectors and of matrices are rounded once (exact when the operands of a difference are within a factor of two), infinite exactly beyond the overflow threshold of binary32, and the same with and without assignment. The product of two matrices accumulates in floats, so its error grows with 2^-24, and it differs from the product of the same matrix with the same column as a vector. The cross product has the error of its two products and their difference. The angle calls arccos with a number of [-1, 1] within 6 * 2^-24 of the exact cosine, and with a NaN for short vectors.", "quantifier": "for every size up to 2^51, all finite floats, every finite double as factor; both build modes, static and dynamic sizes", "why_tests_cant": "The two precisions meet inside one expression and only some exponents expose it; a test fixes them.", "anchors": ["include/core/vector_operators.hpp:46-68 lp_norm", "include/core/vector_operators.hpp:76-80 mean", "include/core/vector_operators.hpp:90-96 dot_product", "include/core/vector_operators.hpp:104-109 unit", "include/core/matrix_dense.hpp:133-148 operator*=, operator/=", "include/core/matrix_dense.hpp:313-328 operator*=, operator/=", "include/core/matrix_dense.hpp:456-465 operator*", "include/core/matrix_dense.hpp:92-98 Matrix_Dense", "include/core/vector_operators.hpp:120-128 angle", "include/core/vector_operators.hpp:138-152 cross_product", "include/core/vector_dense.hpp:319-345 operator+, operator-", "include/core/matrix_dense.hpp:478-541 operator+, operator-, operator*"]}
{"id": "C137", "title": "CSR_Data with arguments of another integral type", "statement": "The free functions resize, insert, insert_or_assign and lower_bound of CSR_Data take their row and column in any integral type at least as wide as int, not only in the index type. When the row, the column and the sizes of the matrix fit into both types they do exactly what they do with indices without bounds, whatever the signs and widths of the two types; with arguments of the index type itself they are the functions of C131. Resizing to no columns keeps the entries whose column is at most -1 converted to the argument type and then to the type of the comparison: none when both types are signed, all when the comparison is unsigned. insert casts the number of columns (rows) to the argument type when the row (column) is new; when the cast loses bits, all entries outside the remaining columns (rows) are lost and the matrix is reported smaller; when it becomes negative the debug build stops. Negative arguments stop the debug build; in the release build, compared as unsigned, a negative row is not found by lower_bound, and resize to -1 rows removes all row offsets and keeps all entries.", "quantifier": "for every pair of integral types of at least 32 bits, every well-formed matrix, every row and column; both build modes", "why_tests_cant": "The tests call the functions with int on small std::size_t matrices, where the conversions are invisible; the losses need sizes beyond the argument type or negative arguments in a release build.", "anchors": ["include/core/matrix_sparse_data.hpp:152-191 resize", "include/core/matrix_sparse_data.hpp:211-238 insert", "include/core/matrix_sparse_data.hpp:256-263 insert_or_assign", "include/core/matrix_sparse_data.hpp:282-298 lower_bound", "include/core/matrix_sparse_data.hpp:317-330 lower_bound"]}
{"id": "C138", "title": "SOR in double precision reaches the solution up to rounding", "statement": "On every sparse system of finite doubles whose rows are dominant by more than a factor of three (row sums beside the diagonal at most q times the diagonal, (1+3q)/2 (1+u)^(n+5) < 1, no overflow at the magnitudes involved) every sweep of SOR, whose factor is 3/2 whatever relaxation is configured, stays finite and after k sweeps every element is within floor + ((1+3q)/2 (1+u)^(n+5))^k E0 of the exact solution, where E0 bounds the start error above the floor. Started at zero this needs no knowledge of the solution, which exists and is unique. The same bound holds for the vector solve_system returns, with k the reported number of iterations. With a tolerance the solver stops after at most k sweeps when the residual bound belonging to the k-th level of the error meets the tolerance relative to the first sweep, and a tolerance met by the floor is reached after a number of sweeps that does not depend on the limits. For rows dominant only by the factor 1/2 it fails: a system with a finite solution is given whose iterates are infinite from the 60th sweep on.", "quantifier": "all sizes, all such systems of doubles, all start vectors in range, all iteration limits and relaxations, both build types", "why_tests_cant": "The tests run SOR once on one grid and expect nothing; how the rounding of the relaxed update accumulates over any number of sweeps of any system is a statement about all executions, and so is the limit of dominance below which the iterates overflow.", "anchors": ["src/solver/solver_fixed_point.cpp: forward_sweep 29-40, Sor solve_system 106-116"]}
{"id": "C139", "title": "Errors and nearby systems from residuals, in double precision", "statement": "Whenever the direct solver (with or without pivoting) factorises a matrix of doubles and the factors and the result are finite, the result solves exactly a system whose matrix differs from the given one by at most gamma(3n) |L||U| entry by entry and whose right hand side differs by at most the underflow term. If H A = I for a real matrix H, the error of every component of the result is at most the row of |H| (with the rows exchanged as the solver did) times that bound, and with r and c bounding the rows' shares it is at most (r X + c)/(1 - r), X the size of the exact solution, without mention of the computed one. For every square sparse system and every vector, a finite residual reported by compute_residual bounds the error of component k by the k-th row of |H| times ((1+u)^4 (max residual + 2^-537) + rounding of the product), and the same holds for what Jacobi, Gauss-Seidel and SOR return after at least one sweep with a finite residual, converged or not, for every system that stores its diagonal.", "quantifier": "all sizes, all matrices of doubles with finite factors, with and without pivoting, all right hand sides, all left inverses, all three iterative solvers, all limits and start vectors, both build types", "why_tests_cant": "The tests compare one computed solution of one matrix with a tolerance; that a residual bounds the error by the inverse, and that the result is the exact solution of a nearby system, are inequalities over all matrices and all roundings.", "anchors": ["include/solver/direct_lower_upper_factorisation.hpp: factorise 143-193, solve_system 204-229", "include/solver/solver_utilities.hpp: compute_residual 234-258", "src/solver/solver_fixed_point.cpp: solve_system 64-116"]}
{"id": "C140", "title": "Gauss-Seidel and SOR in double precision on symmetric positive definite systems", "statement": "On every sparse symmetric positive definite system of finite doubles, with l a lower bound of the quadratic form, ro a bound of the rows and s < 1 the factor by which one exact sweep reduces the error in the norm of the matrix, every sweep of Gauss-Seidel and of SOR in double precision stays finite and after k sweeps the error in that norm is at most floor + (s + kappa/(1-kappa))^k E0, where kappa = 4 gamma(n+5) ro sqrt(n)/l measures rounding times condition, provided kappa < 1, the rate is below 1 and the magnitudes leave room; every component is then within that bound divided by sqrt(l). The same holds for the vectors returned by solve_system with k the reported number of iterations, and the floor is reached up to any margin. No dominance of the diagonal is needed. The constants l, ro and s < 1 (for both factors 1 and 3/2) and the solution exist for every symmetric positive definite matrix. A tolerance that the residual at the floor meets stops both solvers after a number of sweeps that does not depend on their limits, and after at most k sweeps if the residual that remains after k sweeps meets it.", "quantifier": "all sizes, all symmetric positive definite sparse systems of doubles with kappa and the rate below 1, all start vectors in range, all limits, both build types", "why_tests_cant": "The tests run the solvers once on one grid Laplacian and compare with a loose tolerance; that rounding inside a sweep acts like a small change of the right hand side and cannot destroy the convergence is a statement about every system, every sweep and every rounding.", "anchors": ["src/solver/solver_fixed_point.cpp: forward_sweep 29-40, Gauss-Seidel solve_system 84-93, Sor solve_system 106-116"]}
{"id": "C141", "title": "Exactly when the iterations converge on symmetric systems", "statement": "On every sparse symmetric system with a positive diagonal and a solution, in exact arithmetic: the iterates of Jacobi converge to the solution from every start if and only if the matrix and the matrix with the signs of its entries outside of the diagonal turned are both positive definite; the iterates of Gauss-Seidel and of SOR converge to it from every start if and only if the matrix is positive definite. One step of Jacobi lowers the energy of the error by exactly the turned energy of the change. From a start whose error has an energy, of the matrix or of the turned matrix, that is not positive, the error of Jacobi weighted by the diagonal never falls below its first value. Hence Gauss-Seidel and SOR converge wherever Jacobi does, and not conversely: on the matrix with 5 on the diagonal and 4 elsewhere they converge from every start and Jacobi, started from zero, does not.", "quantifier": "all sizes, all sparse symmetric systems over the reals with positive diagonal, all solutions, all start vectors and working vectors, both build types", "why_tests_cant": "Tests run single solves on one grid Laplacian, for which all three methods converge; that no other condition on a symmetric matrix is needed, and that without it some start fails for ever, are statements about every matrix, start and number of sweeps.", "anchors": ["src/solver/solver_fixed_point.cpp: forward_sweep 29-40, Jacobi solve_system 64-74, Gauss-Seidel solve_system 85-93, Sor solve_system 107-116"]}
{"id": "C142", "title": "Jacobi in double precision on symmetric positive definite systems", "statement": "On every sparse symmetric system of finite doubles that is positive definite together with the matrix whose entries outside of the diagonal have the other sign, with l a lower bound of the quadratic form, ro a bound of the rows and s < 1 the factor by which one exact step of Jacobi reduces the error in the norm of the matrix, every step of Jacobi in double precision stays finite and after k steps the error in that norm is at most floor + (s + kappa)^k E0, where kappa = 4 gamma(n+5) ro sqrt(n)/l, provided that rate is below 1 and the magnitudes leave room; every component is then within that bound divided by sqrt(l). The same holds for the vector returned by solve_system with k the reported number of iterations, whatever the working vector held; the floor is reached up to any margin; and a tolerance that the residual at the floor meets stops the solver after a number of steps that does not depend on its limits. The factor s < 1 exists for every such matrix.", "quantifier": "all sizes, all symmetric positive definite sparse systems of doubles whose mirrored matrix is positive definite too and whose rate is below 1, all start vectors in range, all working vectors, all limits, both build types", "why_tests_cant": "The tests run the solver once on one grid Laplacian with a loose tolerance; that rounding cannot destroy the convergence of Jacobi without dominance of the diagonal is a statement about every system, every step and every rounding.", "anchors": ["src/solver/solver_fixed_point.cpp: forward_sweep 29-40, Jacobi solve_system 64-74", "include/solver/solver_utilities.hpp: Convergence_Criteria::is_converged 163-169, Convergence_Data::update 195-209"]}
{"id": "C143", "title": "The Laplace systems of the square grid in double precision, from filling the matrix to the end of the solver", "statement": "The writes with which the library's test of the solvers fills its sparse matrix succeed and leave exactly the matrix of the five point equations on the square grid of n by n unknowns: 4 on the diagonal and -1 for every edge of the graph which create_graph_structured generates. Its system has exactly one solution, at most (n+1)^2/8 times as large as the right hand side. Run on it in double precision, Jacobi, Gauss-Seidel and successive over relaxation return finite vectors whose distance from the exact solution is at most a constant times (n+1)^7 times the rounding unit times the size of the solution, plus the distance at the start times (n+1)^2, brought down by a factor 1 - 3/(n+1)^2, 1 - 0.4/(n+1)^2 or 1 - 0.15/(n+1)^2 per iteration. They stop after at most k iterations whenever the residual which that distance leaves after k iterations meets the tolerance. The factors and the coercivity behind them hold for every symmetric matrix with scaled diagonal dominance.", "quantifier": "All sizes n from 2 to 120 (the matrix and its exact solution: all n from 2), debug and release, all finite right hand sides and starts with magnitudes below 2^900 (2^480 for stopping), all iteration limits and tolerances, any number of iterations.", "why_tests_cant": "The test runs one grid of ten by ten and compares with one stored solution. A bound for every right hand side, start, size and iteration count is a statement about infinitely many runs, each of them rounding differently.", "anchors": ["test/solver/test_solver.cpp: SetUp 74-110", "src/solver/solver_fixed_point.cpp: forward_sweep 29-53, solve_system 63-116", "include/graph/generator.hpp: create_graph_structured"]}
{"id": "C144", "title": "Calls which break a precondition end a debug build, and what a release build makes of them", "statement": "In a debug build every call whose arguments break a precondition the library states ends with its message: edges from a vertex to itself, start, seed and stop vertices outside the graph, empty graphs, level vectors of the wrong length, rows, members and entries which do not exist, operands of different sizes, projections onto vectors of length zero, tolerances outside the interval from the rounding unit to one, empty systems and right hand sides of the wrong length. In a release build the same calls go on: out of range accesses are undefined behaviour, no seeds leave every vertex unreached, rows outside a subgraph without levels are answered. No graph ever holds an edge from a vertex to itself.", "quantifier": "All graphs, subgraphs, matrices, vectors, scalars (any operations, doubles and floats, all integer types) and arguments breaking the precondition; debug and release.", "why_tests_cant": "Tests of the assertions try a handful of bad arguments in the build they are compiled for. Which assertion fires for which of all arguments, and what a release build does without it, is not observable from a run which dies.", "anchors": ["include/graph/adjacency_graph.hpp: insert 413-435, contains 536-546", "include/graph/graph_utilities.hpp:52-53, 76-79, 107-110, 158-159, 218-222", "src/graph/reorder.cpp:54, 102", "include/graph/adjacency_subgraph.hpp:289, 309, 341", "src/core/matrix_sparse.cpp:117-125, 352, 386", "include/core/matrix_sparse.hpp:590, 1106-1125", "include/core/vector_operators.hpp:78-183", "include/core/scalar.hpp:83-87", "include/solver/solver_utilities.hpp:237-241", "include/solver/direct_lower_upper_factorisation.hpp:207"]}
{"id": "C145", "title": "The direct solver without pivoting in double precision on systems dominated after a scaling, and on the square grid", "statement": "If the rows of a matrix of doubles are dominated by the diagonal once every unknown is scaled by a weight, the factorisation without pivoting succeeds, the solution is reported as converged, no number overflows, and every component differs from the unique exact solution by at most its weight times a bound in the size of the rows, the margin and the rounding unit. The writes with which the library's test fills its dense matrix leave exactly the five point matrix of the grid of n by n unknowns, whatever the matrix held before. Factorised and solved with, it returns for every right hand side bounded by H a vector within 22 n^4 (n+1)^4 2^-53 H of the unique solution of the five point equations.", "quantifier": "All sizes, finite matrices and right hand sides, weights and tolerances with the stated margin; on the grid all n from 2 to 1000, all right hand sides with a bound between 2^-900 and 2^900, all tolerances of at most 2/(n+1)^2; debug and release.", "why_tests_cant": "The test factorises one grid of ten by ten with one right hand side and compares with one tolerance. Rounding errors of the elimination depend on every entry, and their growth with the size cannot be read off a run.", "anchors": ["include/solver/direct_lower_upper_factorisation.hpp: factorise 142-193, solve_system 203-231", "test/solver/test_solver.cpp: SetUp 74-110 (dense matrix)"]}
{"id": "C146", "title": "The direct solver with pivoting in double precision exchanges no rows on systems with dominated columns, and solves the square grid", "statement": "On a matrix of doubles whose columns are dominated by the diagonal (by a margin that covers the rounding and the tolerance) once the equations are scaled with weights that do not decrease down the rows, the direct solver with pivoting exchanges no rows: the factors, the pivots (the identity), and the solutions are bit for bit those of the solver without pivoting. The dense five-point matrix of the square grid, as the test's SetUp assembles it, is such a matrix: with pivoting, and whether or not the right side and the solution are the same object, the solver reports convergence and the error of the solution is at most 22 n^4 (n+1)^4 2^-53 times the largest right side.", "quantifier": "for every matrix of any size that meets the conditions, every right side; for the grid every side 2 <= n <= 1000, every right side bounded by H between 2^-900 and 2^900, every factorisation tolerance up to 1/(n+1)^2", "why_tests_cant": "the choice of the pivot depends on the rounding of every earlier step, and a test sees a few sides and right sides", "anchors": ["include/solver/direct_lower_upper_factorisation.hpp: factorise 142-193, solve_system 203-231", "include/core/scalar.hpp: is_nearly_greater 137-141", "test/solver/test_solver.cpp: SetUp 74-110"]}
{"id": "C147", "title": "The Laplace problem with a source: assembly, second order error, and convergence", "statement": "The matrix, the right hand side and the start that construct_2D_laplace_source fills are, in exact arithmetic, the five point equations of minus the Laplacian of the function analytical_solution evaluates, with its values on the boundary. They have exactly one solution; it is nowhere below the function and above it by at most the square of the spacing divided by 8 (and by the spacing squared times s(1-s)/2 at distance s from a side). Jacobi and Gauss-Seidel approach it from every start.", "quantifier": "for every number of nodes n >= 3 per side, whatever the vectors held before, every start of the iterations, every accuracy wanted", "why_tests_cant": "a test compares a few grids; the bound is for every grid, and the source formula is checked against the derivatives of the solution formula", "anchors": ["test/solver/test_solver.cpp: co_ordinate 112-115, source 117-125, analytical_solution 127-132, construct_2D_laplace_source 134-163", "include/solver/solver_fixed_point.hpp: Solver_Fixed_Point"]}
{"id": "C148", "title": "The iterative solvers on systems with prescribed values", "statement": "Over the reals, let the equations of some of the unknowns hold no other unknown, with a diagonal entry that is not zero, and let the matrix of the remaining unknowns be symmetric and positive definite; how the remaining equations use the prescribed unknowns is free. Then the system has exactly one solution and from every start both the Gauss-Seidel solver and the SOR solver come nearer to it by a fixed factor per iteration. So does the Jacobi solver when the matrix of the remaining unknowns is positive definite also with its signs turned off the diagonal. In particular Gauss-Seidel and SOR, started anywhere on the Laplace problem with a source of the library's tests, come to the function the problem is made from, up to an eighth of the square of the spacing.", "quantifier": "for all sizes, matrices stored in any way, right hand sides, sets of prescribed unknowns, starts and numbers of iterations; for all grids of at least 3 by 3 nodes", "why_tests_cant": "The test runs the solvers on one grid in floating point and compares with the solution at a tolerance. That no start and no grid makes SOR run away, although the matrix is not symmetric, is a statement about all of them.", "anchors": ["src/solver/solver_fixed_point.cpp:29-41 forward_sweep, 63-76, 83-93, 105-116 solve_system", "test/solver/test_solver.cpp: construct_2D_laplace_source 134-163"]}
{"id": "C149", "title": "In exact arithmetic the iterative solvers meet their tolerance and stop", "statement": "Over the reals, whatever tolerance above zero is asked for, Gauss-Seidel and SOR on symmetric positive definite systems (also with prescribed values), Jacobi when the matrix with turned signs off the diagonal is positive definite too, and Jacobi and Gauss-Seidel on dominant systems are done after a number of iterations that does not depend on the largest number allowed, and unless the largest number ended them the residual of the result is at most the tolerance times the residual after the first sweep, in the norm of the sum of squares, and each equation is missed by at most ten times the tolerance times the largest after the first sweep. All three do so on the Laplace problem with a source. Excluded: a first sweep that satisfies all equations.", "quantifier": "for all sizes, matrices stored in any way, right hand sides, starts, tolerances above zero, smallest and largest numbers of iterations", "why_tests_cant": "A test stops or does not for one system and tolerance; that no tolerance is out of reach is a statement about all of them.", "anchors": ["src/solver/solver_fixed_point.cpp:63-116 solve_system", "include/solver/solver_utilities.hpp: is_converged 163-169, update 195-209, compute_residual 233-258", "test/solver/test_solver.cpp: construct_2D_laplace_source 134-163"]}
{"id": "C150", "title": "The class Laplace_2D fills any matrix it is given with the five point equations", "statement": "construct_laplace_2d, given a square sparse or dense matrix with at least nine rows, whatever it held, and vectors of its size, makes over the reals the five point equations of minus the Laplacian of the function analytical_solution evaluates, with its values on the boundary, in rows of the largest n with n * n at most the number of nodes; on a square number of nodes they are those of construct_2D_laplace_source. They have exactly one solution, within 45/64 of the square of the spacing below and 1/8 of it above the function at every node; Jacobi and Gauss-Seidel approach it from every start and meet every tolerance. The start is that function at every node, although the description says it is zero. Places that are not written keep what was stored there times zero (on the boundary: zero): in doubles zeros if it was finite, and a NaN if it was an infinity. A debug build refuses shapes that do not fit.", "quantifier": "for all matrices and vectors with at least nine nodes, square number of nodes or not, whatever they held; the places for every kind of scalar", "why_tests_cant": "No test includes the class. A test would start from a new matrix; what an element stored before leaves behind depends on every place and value.", "anchors": ["test/solver/laplace_2d.h: construct_laplace_2d 60-92, co_ordinate 94-98, source 106-114, analytical_solution 123-128"]}
{"id": "C151", "title": "Dominance in the weak sense gives definiteness and all three iterative solvers", "statement": "Over the reals, a symmetric matrix with a positive diagonal whose rows have no more off the diagonal than on it, and from each of whose rows a path along non-zero entries leads to a row that has less, is positive definite, also with the signs off the diagonal turned. With unknowns whose values are prescribed the same holds of the matrix of the others. So Jacobi, Gauss-Seidel and SOR come to the one solution by a fixed factor per iteration from every start, and solve() of each meets every tolerance; so also on the system the class Laplace_2D makes, on any number of nodes from nine.", "quantifier": "for all sizes, matrices with these properties, right hand sides, starts, tolerances and numbers of nodes", "why_tests_cant": "A test solves a few systems with one tolerance. That every system of a class is solved, at a geometric rate, needs an argument about all matrices and all starts.", "anchors": ["src/solver/solver_fixed_point.cpp:63-116 solve_system", "test/solver/laplace_2d.h: construct_laplace_2d 60-92"]}
{"id": "C152", "title": "Jacobi and Gauss-Seidel halve their error on Laplace_2D every (n - 1)^2 iterations", "statement": "Over the reals, on the system the class Laplace_2D makes on any number N of nodes from nine, in rows of n = floor(sqrt N), Jacobi and Gauss-Seidel have after k iterations from any start an error at every node of at most twice the largest error of the start times (1 - 1/(n-1)^2)^k; after m (n - 1)^2 iterations it is at most twice that error over 2^m.", "quantifier": "for all numbers of nodes from nine, what the matrix held, starts and numbers of iterations", "why_tests_cant": "A test sees the number of iterations of one grid and one start. The bound holds for every size, start and iteration, and gives how the number grows with the grid.", "anchors": ["src/solver/solver_fixed_point.cpp:63-104 solve_system", "test/solver/laplace_2d.h: construct_laplace_2d 60-92"]}
