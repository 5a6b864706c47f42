# Formal model of Disa: design

Written before the proofs; kept current as the model grows.

## Approach

The C++ sources in `/repo` are modelled function by function as total, computable Gallina
functions (Rocq/Coq 8.16.1). Every definition of the model cites the file and lines it models.
Properties are stated in separate specification files (sets of edges, walks and distances,
finite maps, sums) that do not mention the model's helper functions.

### Outcomes

`res A := Ok a | Abort | Undef | Diverge`

* `Abort` - an `ASSERT` (or, when the flag `dbg` is true, an `ASSERT_DEBUG`) failed: the
  program prints an error and calls `exit(1)`.
* `Undef` - the C++ has undefined behaviour at this point (out of range read/write, `back()` of
  an empty vector, dereferencing `end()`, ...).
* `Diverge` - the fuel of a `while` loop ran out. Theorems about the loop show that it never
  occurs with the stated fuel.

`dbg : bool` models the `DISA_DEBUG` macro. The root `CMakeLists.txt` (line 37) defines it for
every build of the project itself, users of the headers may not define it, so both are covered.

### Data

* `std::vector<T>` is a `list T`; reads/writes are `nth_error`-style and out of range gives `Undef`.
* `std::size_t` is `nat`. Wrap-around is modelled where the code relies on it or is hit by it:
  the "no data" value `numeric_limits<size_t>::max()` is a parameter `M : nat` (theorems hold for
  every `M` not smaller than the vertex count, hence for every word size); `++`/`--` on levels wrap
  at `M`; `column - 1` with `column = 0` is `M`.
* Vertex spans and iterators are index ranges; assignments through a span are in `SpanModel.v`.
* Scalars: structural and arithmetic results about sparse/dense containers are proved for an
  arbitrary type with arbitrary operations and *no* laws, so they hold for IEEE doubles.
  Exact-arithmetic results (LU, fixed points, contraction, geometry) are proved for a field given
  by `field_theory` or for the reals `R`. Floating point statements use `SpecFloat` of the standard
  library (binary64).
* `std::lower_bound`/`upper_bound` are modelled by their contract on partitioned ranges (first
  position not less / greater); sortedness of the ranges is an invariant that is proved.
* `std::sort` on plain indices is insertion sort (the result is unique); where ties are possible
  (`cuthill_mckee`) the sort is an arbitrary function returning a sorted permutation.
* Timing, exceptions and threads are not modelled; capacities (C99) and console messages (C102) have models of their own.

## Properties

"flat" means the actual compressed arrays; "rows" means the list of adjacency lists (or of
column/value lists) they represent. The main proof device is a refinement `flat = of_rows rows`.

| id | model and proof |
|----|-----------------|
| C01 | flat `insert`/`contains`; refinement to row insertion, then induction over the edge list against a set of edges |
| C02 | invariant by induction over a list of operations |
| C03 | flat `resize`; refinement to row filter. The stray write of C04 is modelled by a switch (`strict`); the values are proved for the non-strict reading |
| C04 | refuted: `resize` is `Undef` for every 1 <= n <= size |
| C05 | flat `erase_if`; refinement to filter/relabel, stated with the counting rank |
| C06 | refuted by an isolated vertex and by the empty graph; exact guard proved |
| C07 | flat `reorder`; refinement to permuted rows |
| C08 | refuted with {0,0,3,3} |
| C09, C10 | fuelled queue loop; BFS invariant; walks as spec |
| C11 | refuted by the one vertex graph |
| C12 | level synchronous multi queue loop, invariant per round |
| C13 | refuted: the assertion never fires |
| C14 | lexicographic measure bounds the fuel |
| C15 | simulation of the abstract BFS |
| C16 | refuted: out of range read for every graph with an edge; wrong values even if ignored |
| C17-C19 | queue loop; invariant; sort as arbitrary function |
| C20-C22 | fold over vertices; C21 and C22 refuted |
| C23 | loop over the number of parts; invariant "partition" |
| C24 | refuted through C16; partial for an arbitrary table of eccentricities |
| C25-C29 | subgraph model on top of the graph model; C26, half of C28, half of C29 refuted |
| C30, C31 | induction on the edges inserted; n = 1 (and n = 0 for the line) refuted |
| C32-C37 | flat sparse model; refinement to rows of (column, value), finite map spec; C34-C36 refuted with partial positive parts |
| C38-C41 | law free: values as explicit left folds; C40 refuted |
| C42 | refuted on an iterator model |
| C66 | refuted by case analysis on the three branches |
| C43 | CSR_Data model, refinement to the same rows |
| C44-C47 | dense model with checked accesses; non-square product and aliasing refuted; C47 also for sparse matrices, by position in row-major order |
| C48, C67-C69 | real numbers; static 2-d cross product and empty maximum norm refuted |
| C49, C51 | refuted in SpecFloat; C49 proved accurate in the range without overflow and underflow |
| C50 | SpecFloat, all values |
| C52 | in place elimination over a field, invariant PA = L U + Schur complement |
| C53 | state machine over call histories |
| C70-C74 | loop invariants of the elimination; aliasing, shapes, NaN refuted by execution |
| C54 | sweeps over sparse rows as functions over a field |
| C55-C57, C75, C76 | loop with fuel, invariant on the number of sweeps and the convergence data; C55, C56, C76 refuted |
| C58, C77 | refuted by execution in SpecFloat |
| C59, C60 | real numbers; contraction, completeness for the existence of the solution |
| C85 | energy of the error: one correction lowers it by a square; coercivity by Schur complements gives a factor |
| C86-C88 | rounding error analysis of the SpecFloat operations; law-free description of every operation of the elimination |
| C89 | case analysis on the index against the refinement of C01 |
| C90 | text as a list of characters; lines are free of the separator, so that the join can be cut again |
| C91 | margins and the quadratic form of the Schur complement as invariants of the elimination; composed with C52 |
| C92 | rounding error of one row update as invariant of the sweep, contraction with a floor by induction over sweeps |
| C93 | refinement of the insertion loop of C01; the erasure of C04 for the partition |
| C94 | text as for C90, cut at the separators |
| C95 | result of the inner call combined with the life time of the returned value; refuted |
| C96 | values through the functions matrices represent (interchange of sums), patterns through stored entries, then equal arrays |
| C97 | invariants of the two searches for the smallest largest distance; iterations as a chain of improvements |
| C98 | margins and sizes of the rows of the rounded Schur complement, the right hand side as one more column, as invariants; composed with C87 |
| C99 | `StorageModel.v`: each vector with a capacity and the number of its array next to the models of graph, subgraph and sparse matrix; `tracks`: from l to l' elements the array is the old one or l' exceeded its capacity, composed along insertions |
| C100 | `WalkModel.v`: the loop macros over the iterators with the end evaluated as written; loop invariants over rows and positions; one law free theorem for reading bodies and one for assigning bodies |
| C101 | `MacroModel.v`: integral types as sign and width, the usual arithmetic conversions, overflow of signed types as undefined behaviour; induction on the distance to the end |
| C102 | text as for C90, cut from the end |
| C103 | `InPlaceModel.v`: every read of the constant vector sees the unknown; a row update reads its own component only, hence the first sweep is right; closed form of the sweeps for one equation |
| C104 | the reported numbers bracket the exact residual (C88), a dominant matrix turns a residual into an error; forward bounds keep the residual of a vector near the solution finite and small, so the stopping test succeeds at the sweep C92 reaches |
| C105 | `AliasModel.v`: every use of an argument reads its reference again; as by value wherever the references keep their value, witnesses and a theorem for all matrices (`data.columns` as the column to append) where they do not |
| C106 | `RowObjectModel.v`: simulation between programs over row objects and a finite map with an up-to-date flag per object; only the offsets are read by an assignment, and they are never moved |
| C107 | the loops of the constructors write every element once (`is_vec`, `is_mat`); by cases on the sizes asked for, including the ones no check covers |
| C108 | `SolverObjectModel.v`: histories of calls on one object; a sweep into another vector depends on its size only, factorise on the tolerance only (law free) |
| C109 | agreement of sparse and dense arithmetic: the relation alike between a sparse and a dense matrix is kept by +, -, *, matrix-vector product and scaling, over semi rings with equality and in doubles up to the sign of zero (PropAgree.v) |
| C110 | Geometry in double precision: argument of std::acos within [-1, 1] and within 32 roundings of the cosine, error bounds of cross product and projections, exchange of the factors; `PropGeoFloatLemmas.v`, `PropGeoFloat.v` |
| C111 | Element types that are integral: built-in arithmetic with overflow and promotion, conversions through double where the code has `Scalar`; refuted for unit vectors, angles, fractional factors and 64 bit matrices; `IntModel.v`, `PropIntLemmas.v`, `PropInt.v` |
| C112 | Colour classes are star-shaped around their seed (stronger invariant in `Expansion.v`); bisection characterised by distances, refuted connectedness for stars; `PropConnectedLemmas.v`, `PropConnected.v` |
| C113 | `ElementModel.v`: loops over pointers refine the list of elements of C79; the writing loop by induction on the distance to the end; `end()` undefined under the language rule |
| C114 | From the uniqueness in C52: every statement exhibits a vector that satisfies the equations, with sums split and exchanged in the field |
| C115 | PropCompose.v, PropComposeLemmas.v: equations between sequences of graph operations; spec `compose` (permutations), `kept` (vertices that remain), `rank` |
| C116 | PropFill.v, PropFillLemmas.v: zeros of the factors; spec `profile`, `lowest`, `two_levels` (Envelope.v), `f_zero` (either zero) |
| C117 | PropNumbering.v, PropNumberingLemmas.v: order of the rows in a sweep; spec `renumbered`, `renumbered_matrix`, orders as permutations sorted by colour, `colour_rule` (Colouring.v) |
| C118 | PropTreeLemmas, PropTree: trees (longest path), lines and grids (levels, ends, numberings, factors) (C118) |
| C119 | PropOddLemmas, PropOdd: solves of systems with signs changed (doubles) or scaled (reals) (C119) |
| C120 | SpanModel, PropSpanLemmas, PropSpan: assignments through rows; contains, degree, swap and shrink_to_fit of subgraphs (C120) |
| C121 | OrderFacts, PropOrderLemmas, PropOrder: sweeps keep the order of vectors in doubles; enclosures, settling (C121) |
| C122 | Relaxed sweeps on systems that dominate after scaling the columns, SOR with its fixed 3/2 and the sharp limit 1/3, dominant columns |
| C123 | Sweeps on weakly dominant systems: connected graphs held down at a vertex, lines and grids with explicit rates, SOR on the symmetric ones |
| C124 | The direct solver on matrices without positive entries beside the diagonal, in doubles: signs of the factors, order and sign of solutions; weakly dominant tridiagonal matrices at every size |
| C125 | Norms, means and inner products in doubles: exactness of the maximum, error bounds, monotonicity, signs; NaN passed over by the maximum norm, means outside the range of the elements |
| C126 | Levels as distances: metric laws, several sources, a new edge, erased vertices; twice the eccentricity of the pseudo-peripheral vertex bounds the diameter; it need not be peripheral |
| C127 | PropClose.v: approximate comparisons measured in reals: the meaning of the tolerances with every rounding, zero, infinities, larger tolerances, opposite signs, the numeric limits |
| C128 | PropNested.v: one more part of a bisection refines the first largest part only; parts of lines are intervals, balanced within a factor of two plus one, and even for powers of two |
| C129 | C129: laws of dense arithmetic: associativity, distributivity, linearity and transposition over a commutative semi-ring as equality of results; commutativity, units, cancellation and powers of two in doubles bit for bit (`PropLawsLemmas.v`, `PropLaws.v`) |
| C130 | `TopModel.v`: the sums of resize and insert as std::size_t computes them, shown equal to the exact ones below the top; at the top the wrapped sums are followed through the code |
| C131 | `CsrIntModel.v`: the free functions over Z with the conversions and overflow rules of an index type; refinement to the nat model of `CsrDataModel.v` when everything fits |
| C132 | every sweep is determined by one equation per row (`sweep_ok`, `mix_unique`); superposition, scaling and translation follow from its uniqueness, convergence over R from superposition |
| C133 | sums over a permutation carry equations across; C91, C116, C118 and C123 are joined into one statement about graph, numbering, factors and solution |
| C134 | PropFactor.v; determinants by expansion along the first column (Determinant.v), an invariant that also describes the round that refuses |
| C135 | PropPivot.v; bounds of the elements as an invariant of the rounds next to the order of operations of C87 (LuFloat.v), the vector of a refusal from the partial factors (PropFactorLemmas.v), bounds of both substitutions |
| C136 | PropSingle.v, PropSingleSums.v (model in SingleModel.v and SingleOps.v); floats and their conversions through Flocq (SingleFacts.v), double-precision results of C125 on the widened vector, infinities and zeros by cases |
| C137 | `CsrArgModel.v`, PropCsrArg.v: the free functions with arguments of another type than the index type, comparisons in the common type of both; refinement to the unbounded model when everything fits, to C131 when the types agree |
| C138 | FloatSor.v, PropSor.v: the error analysis of C92 with the relaxed update (factor 3/2), an overflowing run computed for a system dominant by the factor 1/2 |
| C139 | FloatForward.v, PropForward.v: the residual bounds of C92 and C135 turned into errors by a left inverse, and into a nearby system |
| C140 | EnergyDrift.v, FloatDrift.v, FloatDefStop.v, PropDefinite.v, PropDefiniteStop.v: rounding in a sweep as a change of the right hand side, in the norm of the matrix; the tolerance by the residual |
| C141 | SymmetricJacobi.v, PropSymmetric.v: exact arithmetic; the energies of the matrix and of the mirrored matrix; log-convexity of the errors of Jacobi weighted by the diagonal |
| C142 | FloatDefJacobi.v, PropDefiniteJacobi.v: as C140, for Jacobi |
| C143 | ScaledSymmetric.v, FloatGrid.v, GridSetup.v (the writes of the test's SetUp, test_solver.cpp 74-110, its sparse matrix; int indices, n at least 2 instead of 3), GridWhole.v, GridStop.v, PropGrid.v: constants of the grid put into C140 and C142, and the stops of C140 on it; n up to 120, where the rounding terms stay below the progress of a step |
| C144 | Refused.v, PropRefused.v: the assertions of the model with both builds; those on sizes of dense vectors and matrices are in C45 and C46, those of the generators and permutations with their properties |
| C145 | LuScaled.v (the elimination with weights on the columns), LuScaledSolve.v, ScaledSolved.v, GridDirect.v (the dense matrix of the test's SetUp, test_solver.cpp 74-110; weights from the hump of C143), PropScaled.v; without pivoting; with pivoting see C146 |
| C146 | LuColumn.v (the elimination with weights on the rows and the search for the pivot, in doubles), ColumnSolved.v, PropColumn.v; the weights must not decrease (C146_order_needed shows a matrix whose rows are exchanged otherwise) |
| C147 | SourceModel.v (construct_2D_laplace_source and its helpers, test_solver.cpp 112-163, for every scalar type; the loop at 151 has nothing to visit in a new fixture), SourceFacts.v, SourceError.v, SourceSolved.v, PropSource.v; exact arithmetic |
| C148 | IterModel.v (forward_sweep, the Jacobi, Gauss-Seidel and SOR steps), SourceModel.v; Prescribed.v, PrescribedRate.v, PrescribedJacobi.v, PropPrescribed.v; exact arithmetic |
| C149 | IterModel.v (the three solve_system with is_converged and update), SourceModel.v; StopReal.v, PrescribedJacobi.v, PropStopReal.v; exact arithmetic |
| C150 | LaplaceModel.v (the class Laplace_2D, test/solver/laplace_2d.h 34-129, for a sparse and a dense matrix and every scalar type; the numbers of nodes are ints), LaplaceFacts.v, LaplaceReal.v, LaplaceSolved.v, PropLaplace.v; exact arithmetic for the equations, every scalar type for the places that are not written, doubles for what they hold |
| C151 | WeakDefinite.v, PropWeakDefinite.v (the sweeps of IterModel.v and the class of LaplaceModel.v; no new part of the code); exact arithmetic |
| C152 | LaplaceRate.v, PropLaplaceRate.v (the sweeps of IterModel.v on the system of LaplaceModel.v; no new part of the code); exact arithmetic |
| C61, C78 | case analysis on the dispatch table |
| C79-C82 | row objects of CSR_Data: the view as the entries of a row, induction over assignments |
| C62 | refuted by the one vertex graph |
| C83, C84 | monotone lowest neighbours of a level order, double counting of envelope positions |
| C63-C65 | subgraph model: map invariant of the level loops; C64 refuted in release builds |

A refuted property has a theorem `..._refuted` with a concrete witness (or a whole class of
witnesses) and, next to it, the strongest positive part proved (`..._partial`).

## Trusted base

* Coq 8.16.1's kernel (and `vm_compute`).
* What `Print Assumptions` lists under each property theorem: "Closed under the global context"
  except for theorems about `R`, which list the axioms of the standard library's reals
  (`ClassicalDedekindReals.sig_forall_dec`, `sig_not_dec`, `functional_extensionality_dep`, and
  `Classical_Prop.classic` where real analysis lemmas use it).
* Flocq supplies the relation between SpecFloat operations and rounded reals (C86-C88, C92, C98, C104); its lemmas add no
  axiom beyond those above.
* The reading of the C++ code: nothing here runs it. Doubles are IEEE binary64 in round to nearest even, every
  operation rounded once (no fused multiply-add, no extended precision).

## The unit tests, run on the model

Whether the model reads the code rightly cannot be proved here. As a check, the expectations of the unit tests in `/repo/test` are
stated as Examples about the model and closed by computation, with the data of the tests: `ReplayGraph.v`, `ReplaySubgraph.v`
(test/graph), `ReplaySparse.v`, `ReplayCsr.v`, `ReplayDense.v` (test/core, doubles and `EXPECT_DOUBLE_EQ` included) and
`ReplaySolver.v` (test/solver). The tests are built with `DISA_DEBUG`, so death tests are `Abort`. What this showed:

* The tests of `resize` and of sparse iterators rely on reads outside an array that happen to be harmless; they hold in the lenient
  readings of the model only (`resize` without `strict`, `stray`, `ElementModel` without `strict`).
* `test_csr_data, size` writes to `row_offset[8]` of an array of eight elements.
* The macro `NEARLY_EQUAL_TESTS` of `test_scalar.cpp` is one comment, since each of its lines ends in a backslash: the test of
  `is_nearly_equal` checks nothing. What it was meant to check holds.
* The test of the iterative solvers expects nothing; in the model they stop after 236, 122 and 36 iterations (evaluated when ReplaySolver.v is compiled; the Example is on a grid of 3 by 3).

Left out: tests of null pointers, and tests that are commented out.

## What is modelled and what is not

Modelled: see the comment of each definition in `rocq/theories/*Model.v`:

* `GraphModel.v` - `Adjacency_Graph` (all mutating members, access, hash) and the generators.
* `TraversalModel.v` - level traversal, level expansion, pseudo peripheral vertex, eccentricity.
* `SpanModel.v` - assignments through the rows of graphs and subgraphs; members of subgraphs that pass a call on, `swap`,
  `shrink_to_fit`.
* `ReorderModel.v` - breadth first, Cuthill McKee, greedy multicolouring. The comparison sort of
  `cuthill_mckee` is a parameter.
* `PartitionModel.v` - recursive bisection and multinode level set expansion; the conversion of the
  middle level through `double` is a parameter `rnd`.
* `SparseModel.v` - `Matrix_Sparse`: constructors, lookups, updates, arithmetic, products, iterators. The
  read one past the offsets in `end()->end()` yields `stray` (`None` is undefined behaviour).
* `CsrDataModel.v` - `CSR_Data` (`matrix_sparse_data.hpp`): sizes, resize, lower_bound, insert,
  insert_or_assign. Bounds checked element reads are not modelled.
* `AliasModel.v` - `insert`, `insert_or_assign` and `resize` of both when an index or value argument refers to the
  number of columns, a column index or a value of the object. References into the row offsets are left out.
* `RowModel.v` - `Matrix_Sparse_Row` and `SparseAccessor` (`matrix_sparse_new.hpp`). Row objects made before
  a change of the arrays are positions in the changed arrays.
* `RowObjectModel.v` - several row objects with the arrays they point into (reallocation, copies, moved-from objects).
* `ElementModel.v` - the elements of a row and the iterators over them, by pointers into the two arrays; the address of the end of a span is taken either as undefined (`strict`) or as computed without a read.
* `DenseModel.v` - `Vector_Dense`, `Matrix_Dense` (static and dynamic) and `dot_product`. References
  handed in may alias the object (`Own`, `MOwn`, `None`). One scalar type is used throughout; element types that the
  code converts through `double` are in `IntModel.v` and `SingleModel.v`. Elements a constructor leaves uninitialised are `junk`.
* `ScalarModel.v` - the approximate comparisons of `scalar.hpp` over a record of scalar operations
  (`sops`); `fops` is IEEE double precision as in the standard library's `SpecFloat`.
* `GeometryModel.v` - `lp_norm`, `mean`, `unit`, `angle`, `cross_product`, projections. `std::pow`, `cbrt`,
  `acos` are parameters; over the reals (`GeometryReal.v`) they are the exact functions. Vectors of
  integers are in `IntModel.v`.
* `IntModel.v` - dense vectors and matrices of integral types and their norms, unit vectors and angles. Arguments that
  refer to elements of the object are left out.
* `SingleModel.v` - what differs for dense vectors and matrices of `float`: norms, `mean`, `dot_product`, `unit`, scaling of
  matrices by a double, the lambda constructor, the product of a matrix and a vector. Sums of vectors are
  the operations of `DenseModel.v` on floats. The projections do not compile for floats.
* `SingleOps.v` - sums and products of matrices of floats, `angle` and `cross_product`.
* `LuModel.v` - `Direct_Lower_Upper_Factorisation` with `_size` = 0; static sizes do not compile because
  `Vector_Dense` of static size has no `resize`. The times in `Convergence_Data` are left out.
* `IterModel.v` - `Solver_Fixed_Point` (Jacobi, Gauss-Seidel, SOR), both sweeps, `compute_residual`,
  `Convergence_Data`, `Convergence_Criteria`, `build_solver`, `Solver::solve`, `get_config`. The iteration
  counter wraps at `M`. Left out: times, the vectors of a system aliasing each other (see C103), overflow of the `int`
  row counter (see C101). `std::pow(x, 2)` is `x * x`.
* `TextModel.v` - the stream operators of the graphs; a stream is the text written so far, numbers are written in
  decimal.
* `MatrixTextModel.v` - the stream operator of `Matrix_Sparse`; how an element is written is a parameter.
* `BaseSolverModel.v` - `solve` of `Direct` and `Solver_Iterative`, which returns a reference that is dangling.
* The constructors of `Direct` and `Solver_Iterative` call `initialise_solver` of the derived class before its members exist
  (direct.hpp 58, solver_iterative.hpp 47). The derived constructor of the direct solver calls it again (59), and the iterative
  solvers keep their data in the base class, so the model initialises once, at the end.
* `SourceModel.v` - `construct_2D_laplace_source` of the test of the solvers, for sizes whose square is an `int`.
* `SubgraphModel.v` - `Adjacency_Subgraph`. The hash of `std::size_t` is an arbitrary function, the
  `shared_ptr` to the global-to-local map is an `option` that is returned. Level counts are required
  to be below `M`: `update_levels` with `M` itself on a disconnected parent treats unreachable
  vertices as reached.
* `StorageModel.v` - capacities and arrays of the vectors inside graphs, subgraphs and sparse matrices; the growth
  policy of `std::vector` is a parameter, running out of memory is left out.
* `WalkModel.v` - the macros `FOR_EACH`, `FOR_ITER` over rows and entries of a sparse matrix, subscripts and differences
  of its iterators, scaling by a reference to one of its elements.
* `InPlaceModel.v` - `solve_system` of the fixed point solvers with one vector as unknown and constant.
* `MacroModel.v` - the index loops for all integral types, `console_format` and the message macros.
* `TopModel.v` - resize and insert of graphs and matrices with sums that wrap at the largest std::size_t (elsewhere the sums are exact).
* `CsrIntModel.v` - the free functions of CSR_Data for any index type at least as wide as int.

Not modelled: out-of-memory,
timing fields of `Convergence_Data`, the wording of the messages passed to the macros, template instantiation failures
(`matrix_sparse_new.hpp` const subscript does not parse without `DISA_DEBUG`).
