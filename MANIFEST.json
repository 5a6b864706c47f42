{
 "claims": [
  {
   "property": "C01",
   "status": "proved",
   "theorems": [
    "C01_insert_sequence",
    "C01_insert_one"
   ],
   "note": "All finite edge sequences, both directedness flags, both build modes."
  },
  {
   "property": "C02",
   "status": "proved",
   "theorems": [
    "C02_reachable_well_formed",
    "C02_graph_invariant"
   ],
   "note": "Reachability by insert, resize, erase_if, reorder, clear; degree sums included."
  },
  {
   "property": "C03",
   "status": "proved",
   "theorems": [
    "C03_resize_keeps_surviving_edges"
   ],
   "note": "Proved for the values (strict = false, the stray access of C04 ignored)."
  },
  {
   "property": "C04",
   "status": "partial",
   "theorems": [
    "C04_resize_memory_safe_refuted",
    "C04_resize_memory_safe_partial"
   ],
   "note": "Violated: resize(n) subscripts offset[n+1] for every 1 <= n <= size_vertex(); exact set of undefined calls proved."
  },
  {
   "property": "C05",
   "status": "proved",
   "theorems": [
    "C05_erase_if_induced",
    "C05_rank_monotone",
    "C05_rank_onto"
   ],
   "note": "Proved under the exact definedness condition of C06."
  },
  {
   "property": "C06",
   "status": "partial",
   "theorems": [
    "C06_erase_if_defined_refuted",
    "C06_erase_if_defined_partial"
   ],
   "note": "Violated: an index table is sized by adjacency entries instead of vertices; exact set of undefined calls proved."
  },
  {
   "property": "C07",
   "status": "proved",
   "theorems": [
    "C07_reorder_isomorphism",
    "C07_reorder_inverse"
   ],
   "note": "Isomorphism, degrees, returned graph, inverse restores the same arrays."
  },
  {
   "property": "C08",
   "status": "partial",
   "theorems": [
    "C08_reorder_rejects_refuted",
    "C08_reorder_rejects_partial"
   ],
   "note": "Violated: the checksum accepts {0,0,3,3}; only wrong length or sum is rejected."
  },
  {
   "property": "C09",
   "status": "proved",
   "theorems": [
    "C09_level_traversal_exact",
    "C09_distance_below_no_data"
   ],
   "note": "Both flags, both build modes; debug build needs two vertices (see C11)."
  },
  {
   "property": "C10",
   "status": "proved",
   "theorems": [
    "C10_level_traversal_queue"
   ],
   "note": "Queue of any sources, duplicates allowed, any end level."
  },
  {
   "property": "C11",
   "status": "partial",
   "theorems": [
    "C11_level_traversal_accepts_refuted",
    "C11_level_traversal_accepts_partial"
   ],
   "note": "Violated by the one vertex graph in a debug build; proved that it is the only refused call."
  },
  {
   "property": "C12",
   "status": "proved",
   "theorems": [
    "C12_level_expansion_nearest"
   ],
   "note": "Any seeds, duplicates and unreachable vertices included."
  },
  {
   "property": "C13",
   "status": "partial",
   "theorems": [
    "C13_level_expansion_disconnected_refuted",
    "C13_level_expansion_never_aborts_refuted"
   ],
   "note": "Violated: the assertion never fires; proved for every graph."
  },
  {
   "property": "C14",
   "status": "proved",
   "theorems": [
    "C14_pseudo_peripheral_terminates",
    "C14_pseudo_peripheral_vertex"
   ],
   "note": "Termination for both flags; distance claims for undirected connected graphs."
  },
  {
   "property": "C15",
   "status": "proved",
   "theorems": [
    "C15_eccentricity_vertex_exact"
   ],
   "note": "Both flags, any previous contents of the distance vector."
  },
  {
   "property": "C16",
   "status": "partial",
   "theorems": [
    "C16_eccentricity_graph_refuted",
    "C16_eccentricity_graph_values_refuted",
    "C16_eccentricity_graph_partial",
    "C16_eccentricity_graph_defined_partial"
   ],
   "note": "Violated for every undirected graph with an edge; proved for edgeless graphs."
  },
  {
   "property": "C17",
   "status": "proved",
   "theorems": [
    "C17_breadth_first",
    "C17_breadth_first_disconnected"
   ],
   "note": "Permutation, distance levels, order within a level; abort exactly on disconnected graphs."
  },
  {
   "property": "C18",
   "status": "proved",
   "theorems": [
    "C18_cuthill_mckee",
    "C18_cuthill_mckee_default_start",
    "C18_cuthill_mckee_disconnected"
   ],
   "note": "For every correct sorting routine; level order, first numbered neighbour, degree ties; default start is the first vertex of minimum degree."
  },
  {
   "property": "C19",
   "status": "proved",
   "theorems": [
    "C19_cuthill_mckee_reverse"
   ],
   "note": "Follows C18; start vertex numbered last."
  },
  {
   "property": "C20",
   "status": "proved",
   "theorems": [
    "C20_greedy_blocks"
   ],
   "note": "Colouring exhibited, proper, numbering by colour then index."
  },
  {
   "property": "C21",
   "status": "partial",
   "theorems": [
    "C21_greedy_permutation_refuted",
    "C21_greedy_permutation_partial"
   ],
   "note": "Violated by every edgeless graph with two or more vertices; exact set of failures proved."
  },
  {
   "property": "C22",
   "status": "partial",
   "theorems": [
    "C22_greedy_lowest_colour_refuted",
    "C22_greedy_colour_rule_partial"
   ],
   "note": "Violated: a path of n vertices gets n colours; the rule actually followed is proved."
  },
  {
   "property": "C23",
   "status": "partial",
   "theorems": [
    "C23_bisection_partial",
    "C23_bisection_debug_refuted",
    "C23_bisection_empty_refuted"
   ],
   "note": "Partition into k induced parts proved for k up to the vertex count (any k in release builds); debug builds abort for more parts than vertices and the empty graph is undefined behaviour (refuted parts). Middle level rounding through double is a parameter."
  },
  {
   "property": "C24",
   "status": "partial",
   "theorems": [
    "C24_multinode_undefined_refuted",
    "C24_multinode_refuted",
    "C24_multinode_partial",
    "C24_multinode_single_partial"
   ],
   "note": "Every call with two or more subgraphs is undefined behaviour through eccentricity_graph; the iteration is proved correct for any readable eccentricity table."
  },
  {
   "property": "C25",
   "status": "proved",
   "theorems": [
    "C25_subgraph_induced",
    "C25_subgraph_undefined"
   ],
   "note": "Needs at least as many adjacency entries as vertices (any list); the exact undefined cases are proved too (C25_subgraph_undefined)."
  },
  {
   "property": "C26",
   "status": "partial",
   "theorems": [
    "C26_any_order_refuted",
    "C26_any_order_partial"
   ],
   "note": "Refuted for lists that are not ascending: edges follow the sorted list, local_global the given one (proved as the partial part)."
  },
  {
   "property": "C27",
   "status": "partial",
   "theorems": [
    "C27_levels",
    "C27_levels_direct",
    "C27_update_levels_outcome",
    "C27_update_levels_returns",
    "C27_update_levels_refuted",
    "C27_remove_levels_refuted"
   ],
   "note": "Every subgraph reached by construction, update_levels and reorder is the induced k-halo with distances as levels. update_levels is not total: outcome characterised exactly, with a debug abort and an out of range read as witnesses. Level counts below numeric_limits::max()."
  },
  {
   "property": "C28",
   "status": "partial",
   "theorems": [
    "C28_subgraph_reorder_partial",
    "C28_subgraph_reorder_refuted"
   ],
   "note": "Reordered object fully correct; returned object loses the parent hash (refuted part)."
  },
  {
   "property": "C29",
   "status": "partial",
   "theorems": [
    "C29_is_parent_partial",
    "C29_is_parent_counts_partial",
    "C29_is_parent_refuted"
   ],
   "note": "Own parent always recognised; two different paths on four vertices are confused for every std::hash (refuted part)."
  },
  {
   "property": "C30",
   "status": "partial",
   "theorems": [
    "C30_create_graph_line",
    "C30_create_graph_line_refuted"
   ],
   "note": "Proved for n >= 2; n = 1 and n = 0 violate the property."
  },
  {
   "property": "C31",
   "status": "partial",
   "theorems": [
    "C31_create_graph_structured",
    "C31_create_graph_structured_refuted"
   ],
   "note": "Proved for n <> 1; n = 1 violates the property."
  },
  {
   "property": "C32",
   "status": "partial",
   "theorems": [
    "C32_finite_map_partial",
    "C32_erase_debug_refuted"
   ],
   "note": "Any operation sequence refines a finite map, all reads included. In debug builds erase reads one past the offsets (refuted part), so the map result assumes that read returns something there."
  },
  {
   "property": "C33",
   "status": "partial",
   "theorems": [
    "C33_storage_partial",
    "C33_erase_debug_refuted",
    "C33_erase_ends_partial"
   ],
   "note": "Same assumption about erase in debug builds as C32."
  },
  {
   "property": "C34",
   "status": "partial",
   "theorems": [
    "C34_at_partial",
    "C34_at_other_entry_refuted",
    "C34_at_out_of_range_refuted"
   ],
   "note": "Complete case analysis of at; wrong value and out of range read for a missing last entry of a row (refuted parts)."
  },
  {
   "property": "C35",
   "status": "partial",
   "theorems": [
    "C35_resize_partial",
    "C35_resize_zero_columns_refuted",
    "C35_resize_refuted"
   ],
   "note": "Proved for one or more columns; resizing to 0 columns keeps all entries (refuted part)."
  },
  {
   "property": "C36",
   "status": "partial",
   "theorems": [
    "C36_lookup_partial",
    "C36_lookup_past_partial",
    "C36_lookup_refuted"
   ],
   "note": "Defined for existing rows; undefined behaviour for every other row (refuted part)."
  },
  {
   "property": "C37",
   "status": "proved",
   "theorems": [
    "C37_constructor"
   ],
   "note": "For any sorting function, ties in any order."
  },
  {
   "property": "C38",
   "status": "proved",
   "theorems": [
    "C38_addition",
    "C38_subtraction",
    "C38_self"
   ],
   "note": ""
  },
  {
   "property": "C39",
   "status": "proved",
   "theorems": [
    "C39_product",
    "C39_product_ring"
   ],
   "note": ""
  },
  {
   "property": "C40",
   "status": "partial",
   "theorems": [
    "C40_self_product_zero_refuted",
    "C40_self_product_shape",
    "C40_self_product_refuted"
   ],
   "note": "A *= A gives the zero matrix."
  },
  {
   "property": "C41",
   "status": "proved",
   "theorems": [
    "C41_mat_vec"
   ],
   "note": ""
  },
  {
   "property": "C42",
   "status": "partial",
   "theorems": [
    "C42_iterators_partial",
    "C42_element_plus_refuted",
    "C42_row_plus_refuted",
    "C42_subscript_partial"
   ],
   "note": "Element iterator +, += and -= do not move, row iterator + and - move their operand (refuted parts). Subscripts and differences are right."
  },
  {
   "property": "C43",
   "status": "proved",
   "theorems": [
    "C43_csr_data",
    "C43_csr_data_insert",
    "C43_csr_data_lower_bound"
   ],
   "note": ""
  },
  {
   "property": "C44",
   "status": "proved",
   "theorems": [
    "C44_vector",
    "C44_vector_mismatch",
    "C44_matrix",
    "C44_matrix_mismatch"
   ],
   "note": ""
  },
  {
   "property": "C45",
   "status": "partial",
   "theorems": [
    "C45_dense_mat_vec_partial",
    "C45_wide_refuted",
    "C45_tall_refuted",
    "C45_static_refuted",
    "C45_dot_sizes",
    "C45_vector_sizes"
   ],
   "note": "Holds for square matrices, and for static rows without assertions. Dynamic matrices that are not square read past the rows or drop components; static ones abort with assertions enabled."
  },
  {
   "property": "C46",
   "status": "partial",
   "theorems": [
    "C46_dense_product_partial",
    "C46_dense_product_assign_partial",
    "C46_alias_refuted",
    "C46_alias_witness_refuted",
    "C46_static_refuted",
    "C46_sizes"
   ],
   "note": "The product is right for dynamic (and equally sized square static) matrices. A *= A gives the zero matrix because the argument is emptied first."
  },
  {
   "property": "C47",
   "status": "partial",
   "theorems": [
    "C47_scale_sparse_partial",
    "C47_scale_sparse_own_refuted",
    "C47_scale_sparse_witness_refuted",
    "C47_scale_vector_partial",
    "C47_scale_matrix_partial",
    "C47_scale_vector_own_refuted",
    "C47_scale_matrix_own_refuted",
    "C47_scale_witness_refuted"
   ],
   "note": "Right for an external scalar or the last element; refuted for any other element: later elements see the scaled value. Vectors, dense and sparse matrices."
  },
  {
   "property": "C48",
   "status": "partial",
   "theorems": [
    "C48_unit",
    "C48_unit_zero",
    "C48_projection",
    "C48_cross",
    "C48_cross_2d",
    "C48_cross_static_refuted",
    "C48_angle"
   ],
   "note": "over R; the static two dimensional cross product is refuted, everything else is proved"
  },
  {
   "property": "C49",
   "status": "partial",
   "theorems": [
    "C49_underflow_refuted",
    "C49_overflow_refuted",
    "C49_unit_partial"
   ],
   "note": "Refuted: 2^-600 underflows and 2^600 overflows in the squared norm. Proved accurate whenever the sum of squares lies in [2^-1000, 2^1000]."
  },
  {
   "property": "C50",
   "status": "proved",
   "theorems": [
    "C50_equal_sym",
    "C50_equal_refl",
    "C50_less_greater",
    "C50_trichotomy"
   ],
   "note": "all double precision numbers"
  },
  {
   "property": "C51",
   "status": "partial",
   "theorems": [
    "C51_nan_refuted",
    "C51_nan_weak_partial",
    "C51_nan_equal_partial"
   ],
   "note": "strict comparisons with NaN are true; the weak ones are false"
  },
  {
   "property": "C52",
   "status": "proved",
   "theorems": [
    "C52_field",
    "C52_real",
    "C52_total"
   ],
   "note": "any field with tolerances that refuse 0; also uniqueness of the solution"
  },
  {
   "property": "C53",
   "status": "proved",
   "theorems": [
    "C53_unfactorised",
    "C53_factorised"
   ],
   "note": "all call histories"
  },
  {
   "property": "C54",
   "status": "proved",
   "theorems": [
    "C54_sweep_fixed_points"
   ],
   "note": "over any field, both sweep directions"
  },
  {
   "property": "C55",
   "status": "partial",
   "theorems": [
    "C55_bound_partial",
    "C55_one_sweep_too_many_refuted",
    "C55_endless_refuted"
   ],
   "note": "bound is max(minimum, maximum+1), endless when maximum is the largest size_t"
  },
  {
   "property": "C56",
   "status": "partial",
   "theorems": [
    "C56_never_set_refuted",
    "C56_refuted"
   ],
   "note": "the flag is never set"
  },
  {
   "property": "C57",
   "status": "proved",
   "theorems": [
    "C57_early_stop",
    "C57_early_stop_real"
   ],
   "note": "law-free scalars and reals, all three solvers"
  },
  {
   "property": "C58",
   "status": "partial",
   "theorems": [
    "C58_ignored_refuted",
    "C58_refuted"
   ],
   "note": "configured factor ignored, 1.5 used"
  },
  {
   "property": "C59",
   "status": "proved",
   "theorems": [
    "C59_residual"
   ],
   "note": "over R"
  },
  {
   "property": "C60",
   "status": "proved",
   "theorems": [
    "C60_sweeps_contract",
    "C60_solves_contract",
    "C60_factor",
    "C60_converges"
   ],
   "note": "over R; includes existence and uniqueness of the solution and convergence from any start"
  },
  {
   "property": "C61",
   "status": "proved",
   "theorems": [
    "C61_dispatch"
   ],
   "note": "all configurations"
  },
  {
   "property": "C62",
   "status": "partial",
   "theorems": [
    "C62_cuthill_mckee_accepts_refuted",
    "C62_cuthill_mckee_accepts_partial"
   ],
   "note": "Violated by the one vertex graph in a debug build; proved that it is the only refused connected graph."
  },
  {
   "property": "C63",
   "status": "proved",
   "theorems": [
    "C63_global_to_local"
   ],
   "note": ""
  },
  {
   "property": "C64",
   "status": "partial",
   "theorems": [
    "C64_subgraph_at_partial",
    "C64_subgraph_at_refuted"
   ],
   "note": "at() calls operator[]: checked with DISA_DEBUG only."
  },
  {
   "property": "C65",
   "status": "proved",
   "theorems": [
    "C65_subgraph_shrink",
    "C65_subgraph_grow"
   ],
   "note": "For the reading in which the stray write of graph resize (C04) is ignored."
  },
  {
   "property": "C66",
   "status": "partial",
   "theorems": [
    "C66_data_refuted",
    "C66_data_undefined_refuted",
    "C66_data_empty",
    "C66_shape"
   ],
   "note": "data() returns null pointers or nothing for every non-empty matrix."
  },
  {
   "property": "C67",
   "status": "partial",
   "theorems": [
    "C67_norm",
    "C67_unique",
    "C67_empty_refuted"
   ],
   "note": "all p over R; the maximum norm of an empty vector is undefined behaviour"
  },
  {
   "property": "C68",
   "status": "proved",
   "theorems": [
    "C68_norm_laws"
   ],
   "note": "Minkowski for every p"
  },
  {
   "property": "C69",
   "status": "proved",
   "theorems": [
    "C69_mean",
    "C69_mean_empty"
   ],
   "note": "over R"
  },
  {
   "property": "C70",
   "status": "partial",
   "theorems": [
    "C70_in_place_partial",
    "C70_in_place_refuted"
   ],
   "note": "holds without pivoting, refuted with pivoting"
  },
  {
   "property": "C71",
   "status": "proved",
   "theorems": [
    "C71_multipliers"
   ],
   "note": "over R"
  },
  {
   "property": "C72",
   "status": "partial",
   "theorems": [
    "C72_singular_partial",
    "C72_small_refuted",
    "C72_no_pivot_refuted"
   ],
   "note": "singular matrices are refused; small regular ones too"
  },
  {
   "property": "C73",
   "status": "partial",
   "theorems": [
    "C73_wide_refuted",
    "C73_tall_refuted"
   ],
   "note": "every wide matrix with pivoting is undefined behaviour"
  },
  {
   "property": "C74",
   "status": "partial",
   "theorems": [
    "C74_nan_refuted",
    "C74_overflow_refuted"
   ],
   "note": "refuted by NaN and by overflow"
  },
  {
   "property": "C75",
   "status": "proved",
   "theorems": [
    "C75_square_systems_succeed"
   ],
   "note": "law-free scalars"
  },
  {
   "property": "C76",
   "status": "partial",
   "theorems": [
    "C76_first_sweep_partial",
    "C76_refuted"
   ],
   "note": "normalised by the residual after the first sweep"
  },
  {
   "property": "C77",
   "status": "partial",
   "theorems": [
    "C77_overflow_refuted"
   ],
   "note": "overflow gives NaN which stops the solve"
  },
  {
   "property": "C78",
   "status": "proved",
   "theorems": [
    "C78_config_round_trip",
    "C78_defaults"
   ],
   "note": "all configurations"
  },
  {
   "property": "C79",
   "status": "proved",
   "theorems": [
    "C79_row_view",
    "C79_offset"
   ],
   "note": "The view of one row of CSR_Data."
  },
  {
   "property": "C80",
   "status": "proved",
   "theorems": [
    "C80_row_assignments"
   ],
   "note": "Any sequence of assignments through one row object."
  },
  {
   "property": "C81",
   "status": "partial",
   "theorems": [
    "C81_other_rows_valid_refuted",
    "C81_overwrite_partial"
   ],
   "note": "Refuted: inserting through one row object shifts the entries another row object shows. Overwriting an element keeps every row object right."
  },
  {
   "property": "C82",
   "status": "partial",
   "theorems": [
    "C82_missing_read_reported_refuted",
    "C82_read_outcomes_partial"
   ],
   "note": "Refuted for release builds, which read past the row. All outcomes are characterised, debug builds report it."
  },
  {
   "property": "C83",
   "status": "proved",
   "theorems": [
    "C83_reverse_profile"
   ],
   "note": "The classical result of Liu and Sherman, on the graphs returned by reorder."
  },
  {
   "property": "C84",
   "status": "proved",
   "theorems": [
    "C84_bandwidth"
   ],
   "note": "Distances are given as a function, so that the bound is stated without an algorithm."
  },
  {
   "property": "C85",
   "status": "proved",
   "theorems": [
    "C85_energy_decreases",
    "C85_rate",
    "C85_converges"
   ],
   "note": "Real arithmetic. Any factor in (0,2) for the decrease; Gauss-Seidel and the factor 3/2 that the over-relaxation solver uses for rate and convergence."
  },
  {
   "property": "C86",
   "status": "proved",
   "theorems": [
    "C86_operations",
    "C86_dot",
    "C86_dot_finite",
    "C86_mat_vec",
    "C86_sparse_mat_vec",
    "C86_gamma"
   ],
   "note": "IEEE doubles; Flocq supplies the facts about rounding; nothing is claimed when the result overflows"
  },
  {
   "property": "C87",
   "status": "proved",
   "theorems": [
    "C87_factors",
    "C87_residual"
   ],
   "note": "stored factors and solution are assumed finite; the bound involves the computed factors, growth is not bounded"
  },
  {
   "property": "C88",
   "status": "proved",
   "theorems": [
    "C88_residual"
   ],
   "note": "finite root mean square assumed, which excludes overflow of the squares"
  },
  {
   "property": "C89",
   "status": "proved",
   "theorems": [
    "C89_access"
   ],
   "note": "Reachable graphs are well formed by C02."
  },
  {
   "property": "C90",
   "status": "proved",
   "theorems": [
    "C90_graph_text",
    "C90_graph_text_determines_graph",
    "C90_subgraph_text",
    "C90_subgraph_text_determines_subgraph"
   ],
   "note": "Decimal digits are those of the standard library's Nat.to_uint."
  },
  {
   "property": "C91",
   "status": "proved",
   "theorems": [
    "C91_row_dominant",
    "C91_column_dominant",
    "C91_positive_definite",
    "C91_default_tolerance"
   ],
   "note": "Positive definite matrices and dominant rows are treated without pivoting only."
  },
  {
   "property": "C92",
   "status": "proved",
   "theorems": [
    "C92_sweeps",
    "C92_solves",
    "C92_from_zero",
    "C92_reaches_floor"
   ],
   "note": "all n, all dominant systems of doubles; IEEE binary64 round to nearest even"
  },
  {
   "property": "C93",
   "status": "partial",
   "theorems": [
    "C93_graph_from_list",
    "C93_empty_list_refuted",
    "C93_subgraph_checks",
    "C93_duplicates_refuted",
    "C93_example_graphs",
    "C93_cleared"
   ],
   "note": "The empty edge list is read past its end, and std::unique_copy notices only adjacent duplicates of a partition."
  },
  {
   "property": "C94",
   "status": "partial",
   "theorems": [
    "C94_matrix_text",
    "C94_text_determines_entries_partial",
    "C94_columns_lost_refuted"
   ],
   "note": "The number of columns does not appear in the text. The text of an element is a parameter."
  },
  {
   "property": "C95",
   "status": "partial",
   "theorems": [
    "C95_vectors_partial",
    "C95_data_refuted"
   ],
   "note": "solve() returns a reference to a temporary: the vectors are right, reading the data is undefined."
  },
  {
   "property": "C96",
   "status": "partial",
   "theorems": [
    "C96_product_associative",
    "C96_left_distributive",
    "C96_right_distributive",
    "C96_sum_commutative",
    "C96_sum_associative",
    "C96_product_vector",
    "C96_sum_vector",
    "C96_doubles_refuted"
   ],
   "note": "Proved over commutative semi rings; refuted for the sum in doubles."
  },
  {
   "property": "C97",
   "status": "partial",
   "theorems": [
    "C97_centres_partial",
    "C97_no_subgraphs",
    "C97_other_parent",
    "C97_zero_parts"
   ],
   "note": "proved for any table of distances that can be read; the code's table has the size error of C16, so the full function is not reached"
  },
  {
   "property": "C98",
   "status": "proved",
   "theorems": [
    "C98_dominant_rows",
    "C98_default_tolerance"
   ],
   "note": "Row dominance with the right hand side as an extra column; pivoting and column dominance in doubles are not covered (C91 has them over the reals)."
  },
  {
   "property": "C99",
   "status": "partial",
   "theorems": [
    "C99_reserve_partial",
    "C99_reserve_wrap_refuted",
    "C99_sizes",
    "C99_insert_in_place",
    "C99_reserved_inserts",
    "C99_data",
    "C99_data_cases",
    "C99_sub_data",
    "C99_sub_data_refuted",
    "C99_swap",
    "C99_shrink",
    "C99_constructor_refuted",
    "C99_constructor_hint_refuted",
    "C99_subgraph_reserve",
    "C99_matrix_in_place",
    "C99_matrix_reserved"
   ],
   "note": "reserve is partial because twice the number of edges wraps around above half of std::size_t and reserve then returns without room (refuted); the list constructor reserves one offset too few, so its offsets always move once (refuted). Out-of-memory is not modelled."
  },
  {
   "property": "C100",
   "status": "proved",
   "theorems": [
    "C100_visits",
    "C100_row",
    "C100_assign",
    "C100_row_entries"
   ],
   "note": "Loops with a reading body and with an assigning body; bodies that insert or erase during the loop are outside."
  },
  {
   "property": "C101",
   "status": "partial",
   "theorems": [
    "C101_index",
    "C101_base",
    "C101_range",
    "C101_members",
    "C101_mixed_partial",
    "C101_int_refuted",
    "C101_wide_refuted",
    "C101_negative_refuted",
    "C101_narrow_refuted",
    "C101_down_to_zero_refuted",
    "C101_residual_partial",
    "C101_residual_refuted"
   ],
   "note": "Holds for one type, and for two types when the comparison keeps both values and the index type contains the end. Refuted for an int start with a size_t end from 2^31 on (also the counter of compute_residual), for negative starts, for narrow unsigned starts (endless) and for running down to -1 with a size_t."
  },
  {
   "property": "C102",
   "status": "proved",
   "theorems": [
    "C102_text",
    "C102_name",
    "C102_unambiguous",
    "C102_streams",
    "C102_other"
   ],
   "note": "Full statement proved."
  },
  {
   "property": "C103",
   "status": "partial",
   "theorems": [
    "C103_first_sweep_partial",
    "C103_gauss_seidel_refuted",
    "C103_jacobi_refuted",
    "C103_sor_refuted"
   ],
   "note": "Only the first sweep agrees (law free). Refuted for all three solvers: for one equation every run of two or more sweeps ends in a wrong value while reporting convergence."
  },
  {
   "property": "C104",
   "status": "proved",
   "theorems": [
    "C104_error",
    "C104_tolerance",
    "C104_stops",
    "C104_eventually"
   ],
   "note": ""
  },
  {
   "property": "C105",
   "status": "partial",
   "theorems": [
    "C105_references",
    "C105_csr_insert",
    "C105_csr_columns_refuted",
    "C105_insert",
    "C105_insert_or_assign",
    "C105_insert_row_refuted",
    "C105_resize",
    "C105_resize_refuted"
   ],
   "note": "Refuted for the number of columns as the index of an appended column (CSR data), for the row of the iterator insert returns, and for resize to fewer columns by a reference to a column index."
  },
  {
   "property": "C106",
   "status": "proved",
   "theorems": [
    "C106_programs",
    "C106_moved_array",
    "C106_moved_offsets"
   ],
   "note": ""
  },
  {
   "property": "C107",
   "status": "partial",
   "theorems": [
    "C107_default",
    "C107_vector_list",
    "C107_vector_lambda",
    "C107_matrix_list",
    "C107_ragged",
    "C107_ragged_release",
    "C107_static_rows_refuted",
    "C107_matrix_lambda",
    "C107_resize",
    "C107_resize_rows",
    "C107_resize_rows_refuted",
    "C107_result_type"
   ],
   "note": "The constructors and resize(rows, columns) do as stated. Refuted: a static matrix built from a list with another number of rows is not checked in any build (surplus rows are written beyond it), and resize(rows) leaves empty rows so that the sum of two such matrices reads elements that do not exist."
  },
  {
   "property": "C108",
   "status": "partial",
   "theorems": [
    "C108_history",
    "C108_initial_value",
    "C108_dense_refuted"
   ],
   "note": "Reuse and the irrelevance of the initial value are proved. Refuted: Solver has no member to factorise, so through its own interface no dense system is ever solved."
  },
  {
   "property": "C109",
   "status": "partial",
   "theorems": [
    "C109_exact",
    "C109_exact_minus",
    "C109_exists",
    "C109_double_partial",
    "C109_zero_sign_refuted",
    "C109_infinite_refuted"
   ],
   "note": "Holds in exact arithmetic. In double precision the results are the same numbers when the factors of products are finite; the sign of a zero may differ, and infinite components give NaN only in the dense product (both refuted with a witness)."
  },
  {
   "property": "C110",
   "status": "partial",
   "theorems": [
    "C110_angle",
    "C110_range_refuted",
    "C110_cross",
    "C110_cross_exchange",
    "C110_tangent",
    "C110_orthogonal"
   ],
   "note": "Restricted to sums of squares between 2^-1000 and 2^1000 for the angle; outside it the result is refuted."
  },
  {
   "property": "C111",
   "status": "partial",
   "theorems": [
    "C111_vector_sum",
    "C111_vector_scale",
    "C111_wraps",
    "C111_dot_partial",
    "C111_dot_sizes",
    "C111_refused_sizes",
    "C111_mean_partial",
    "C111_mean_none",
    "C111_norm_partial",
    "C111_maximum_norm",
    "C111_maximum_norm_empty",
    "C111_maximum_norm_refuted",
    "C111_unit_refuted",
    "C111_angle_refuted",
    "C111_matrix_sum_partial",
    "C111_matrix_sum_in_place",
    "C111_long_refuted",
    "C111_matrix_scale_partial",
    "C111_matrix_scale_refuted",
    "C111_matrix_divide_refuted",
    "C111_matrix_vector_partial",
    "C111_matrix_product_partial"
   ],
   "note": "The documentation names int as an element type. Refuted: unit and angle truncate their factor to zero, matrices are scaled by the integral part of the factor, 64 bit matrices lose bits in the detour through double, the maximum norm of INT_MIN is undefined."
  },
  {
   "property": "C112",
   "status": "partial",
   "theorems": [
    "C112_expansion",
    "C112_multinode_partial",
    "C112_bisection_two",
    "C112_bisection_partial",
    "C112_bisection_refuted",
    "C112_line"
   ],
   "note": "Refuted: the second part of a bisected star is disconnected. Partial: the multinode expansion is stated about its iteration, because the table of distances is never obtained (C24)."
  },
  {
   "property": "C113",
   "status": "partial",
   "theorems": [
    "C113_visits",
    "C113_changes",
    "C113_increment",
    "C113_decrement",
    "C113_equality",
    "C113_default",
    "C113_reads",
    "C113_assign",
    "C113_end_refuted"
   ],
   "note": "C113_end_refuted: end() dereferences the end of a span, undefined behaviour as the language has it (harmless where the checks of the standard library are off)"
  },
  {
   "property": "C114",
   "status": "proved",
   "theorems": [
    "C114_undoes_product",
    "C114_product_undoes",
    "C114_pivoting",
    "C114_linear",
    "C114_matrix_product"
   ],
   "note": "over fields; doubles are C87 and C98"
  },
  {
   "property": "C115",
   "status": "partial",
   "theorems": [
    "C115_reorder_compose",
    "C115_reorder_distances",
    "C115_insertion_order",
    "C115_insert_commute",
    "C115_insert_reorder",
    "C115_erase_twice_partial",
    "C115_erase_twice_refuted",
    "C115_erase_resize",
    "C115_erase_subgraph",
    "C115_subgraph_of_subgraph_partial"
   ],
   "note": "Renumbering twice, traversal after renumbering, insertion in any order, erase_if twice, erase_if against resize and against the subgraph constructor, subgraph of a subgraph. Partial: erase_if and the subgraph constructor are undefined on graphs with fewer adjacency entries than vertices (C06, C25), so two steps can be undefined where one is not."
  },
  {
   "property": "C116",
   "status": "partial",
   "theorems": [
    "C116_profile",
    "C116_profile_double",
    "C116_graph_profile",
    "C116_cuthill_mckee_band",
    "C116_pivoting_refuted",
    "C116_pivoting_band_partial"
   ],
   "note": "Partial: pivoting leaves the profile (C116_pivoting_refuted). C116_pivoting_band_partial states what remains over the reals: p+q diagonals above and at most p multipliers per column."
  },
  {
   "property": "C117",
   "status": "proved",
   "theorems": [
    "C117_colour_order",
    "C117_greedy",
    "C117_jacobi",
    "C117_in_place",
    "C117_mirror",
    "C117_numbering_matters"
   ],
   "note": ""
  },
  {
   "property": "C118",
   "status": "proved",
   "theorems": [
    "C118_tree_diameter",
    "C118_line",
    "C118_line_numbering",
    "C118_grid",
    "C118_grid_band",
    "C118_grid_factors"
   ],
   "note": "Diameter of trees exact from any start; line and grid levels, ends, numbering and factor band for all sizes."
  },
  {
   "property": "C119",
   "status": "proved",
   "theorems": [
    "C119_sparse",
    "C119_dense",
    "C119_scaled_gauss_seidel",
    "C119_scaled_sor",
    "C119_scaled_jacobi",
    "C119_scaled_direct"
   ],
   "note": "Relational: holds for failing calls and malformed matrices as well; doubles up to the sign of zeros."
  },
  {
   "property": "C120",
   "status": "proved",
   "theorems": [
    "C120_write",
    "C120_write_outside",
    "C120_write_ends",
    "C120_write_directed",
    "C120_write_undirected",
    "C120_write_one_sided",
    "C120_writes",
    "C120_sub_write",
    "C120_sub_write_stale",
    "C120_sub_contains",
    "C120_sub_degree",
    "C120_sub_degree_parent",
    "C120_sub_degree_inner",
    "C120_sub_members",
    "C120_sub_swap",
    "C120_sub_shrink"
   ],
   "note": "Row writes act on the list of rows that the arrays represent; an undirected graph survives only the assignment of the same value. Subgraph answers are derived from the halo specification of C27."
  },
  {
   "property": "C121",
   "status": "proved",
   "theorems": [
    "C121_sweep",
    "C121_order",
    "C121_sign",
    "C121_rising",
    "C121_falling",
    "C121_enclosure",
    "C121_settle",
    "C121_solve",
    "C121_exact",
    "C121_seidel_in_jacobi"
   ],
   "note": "The SOR solver's fixed factor 3/2 is outside the range of the theorems; an Example shows that it does not keep signs."
  },
  {
   "property": "C122",
   "status": "proved",
   "theorems": [
    "C122_sweep",
    "C122_sor",
    "C122_converges",
    "C122_sor_limit",
    "C122_columns"
   ],
   "note": "exact arithmetic over the reals; the limit 1/3 for SOR is shown sharp by a family of 2x2 systems"
  },
  {
   "property": "C123",
   "status": "proved",
   "theorems": [
    "C123_scaling",
    "C123_converges",
    "C123_sor",
    "C123_connected",
    "C123_grounded",
    "C123_line",
    "C123_grid",
    "C123_swing"
   ],
   "note": "exact arithmetic over the reals"
  },
  {
   "property": "C124",
   "status": "proved",
   "theorems": [
    "C124_order",
    "C124_sign",
    "C124_factors",
    "C124_dominant",
    "C124_tridiagonal",
    "C124_tridiagonal_solve"
   ],
   "note": "Order and sign for any factors of the right signs, with or without pivoting; factors without pivoting from strict dominance or tridiagonal weak dominance."
  },
  {
   "property": "C125",
   "status": "partial",
   "theorems": [
    "C125_maximum",
    "C125_maximum_nan_refuted",
    "C125_monotone",
    "C125_opposite",
    "C125_one",
    "C125_two",
    "C125_mean",
    "C125_mean_order",
    "C125_mean_opposite",
    "C125_mean_between_refuted",
    "C125_mean_finite_refuted",
    "C125_dot_symmetric",
    "C125_dot_self"
   ],
   "note": "the maximum norm passes over every NaN but a leading one; the mean of equal elements can exceed them or overflow"
  },
  {
   "property": "C126",
   "status": "partial",
   "theorems": [
    "C126_levels",
    "C126_zero",
    "C126_symmetric",
    "C126_triangle",
    "C126_edge",
    "C126_sources",
    "C126_insert",
    "C126_erase",
    "C126_diameter",
    "C126_peripheral_refuted"
   ],
   "note": "the pseudo-peripheral vertex need not be peripheral (six vertices)"
  },
  {
   "property": "C127",
   "status": "proved",
   "theorems": [
    "C127_limits",
    "C127_meaning",
    "C127_zero",
    "C127_infinite",
    "C127_monotone",
    "C127_opposite",
    "C127_not_transitive"
   ],
   "note": "The measured statement asks that the sum of the magnitudes be at most 2^1023; monotony and the statements on zero and infinities do not."
  },
  {
   "property": "C128",
   "status": "proved",
   "theorems": [
    "C128_nested",
    "C128_line",
    "C128_line_powers"
   ],
   "note": "The conversion of the middle level to double and back is assumed exact on levels of the graph, as in C23."
  },
  {
   "property": "C129",
   "status": "proved",
   "theorems": [
    "C129_product",
    "C129_product_vector",
    "C129_distributes_left",
    "C129_distributes_right",
    "C129_scalars",
    "C129_transposed",
    "C129_linear",
    "C129_dot",
    "C129_commutes",
    "C129_matrix_commutes",
    "C129_unit",
    "C129_powers_of_two",
    "C129_cancels",
    "C129_order_matters",
    "C129_tenths"
   ],
   "note": "Dynamic template sizes; the products with vectors are for square matrices, the others being C45's refuted cases."
  },
  {
   "property": "C130",
   "status": "partial",
   "theorems": [
    "C130_graph_below",
    "C130_insert_refuted",
    "C130_insert_erases_refuted",
    "C130_resize_refuted",
    "C130_matrix_below",
    "C130_row_refuted",
    "C130_column_refuted",
    "C130_shape_refuted"
   ],
   "note": "The safe range is proved in full; the failures at the largest indices are refuted theorems for every M. An allocation of nearly 2^64 elements, which would throw, is not modelled: at these indices no such allocation is made."
  },
  {
   "property": "C131",
   "status": "partial",
   "theorems": [
    "C131_resize",
    "C131_insert",
    "C131_lower_bound",
    "C131_no_columns_signed",
    "C131_no_columns_refuted",
    "C131_negative_debug",
    "C131_negative_offset",
    "C131_negative_row_refuted",
    "C131_negative_column_refuted",
    "C131_too_many_refuted",
    "C131_half_refuted",
    "C131_sizes",
    "C131_sizes_refuted"
   ],
   "note": "The refinement is proved for all types in which everything fits; the failures at zero columns (unsigned), negative indices (release), at the limits of the type and of the reported number of entries are refuted theorems."
  },
  {
   "property": "C132",
   "status": "proved",
   "theorems": [
    "C132_splitting",
    "C132_superposition",
    "C132_iterates",
    "C132_scaled",
    "C132_moved_solve",
    "C132_constant_vector",
    "C132_unit_vectors"
   ],
   "note": "Theorems C132_*: exact arithmetic; convergence statements over R."
  },
  {
   "property": "C133",
   "status": "proved",
   "theorems": [
    "C133_rearranged",
    "C133_refusal_depends_on_numbering",
    "C133_graph",
    "C133_grid",
    "C133_default_tolerance"
   ],
   "note": "Theorems C133_*: field for the read-back, R for the success on graphs and grids."
  },
  {
   "property": "C134",
   "status": "proved",
   "theorems": [
    "C134_product",
    "C134_unique",
    "C134_leading",
    "C134_symmetric",
    "C134_upper",
    "C134_lower",
    "C134_determinant",
    "C134_minors",
    "C134_accepted",
    "C134_determinant_bound",
    "C134_refused",
    "C134_regular",
    "C134_refused_block"
   ],
   "note": "Complements C72: over the reals the accepted matrices are characterised by the leading minors (no pivoting) and bounded from both sides (pivoting)."
  },
  {
   "property": "C135",
   "status": "proved",
   "theorems": [
    "C135_pivot",
    "C135_ends",
    "C135_factors",
    "C135_refused",
    "C135_accepted",
    "C135_dominated",
    "C135_solve",
    "C135_close"
   ],
   "note": "Holds for tolerances of at least 2^-46, the default. The bounds grow with growth(t)^n, which is close to 10^n for the default tolerance and to 2^n for larger ones."
  },
  {
   "property": "C136",
   "status": "partial",
   "theorems": [
    "C136_sums",
    "C136_difference",
    "C136_matrix_sums",
    "C136_times",
    "C136_times_refuted",
    "C136_cross",
    "C136_cross_plane",
    "C136_angle",
    "C136_angle_refuted",
    "C136_norm",
    "C136_norm_zero",
    "C136_norm_one",
    "C136_mean",
    "C136_norm_max",
    "C136_dot",
    "C136_dot_sizes",
    "C136_dot_overflow",
    "C136_dot_underflow",
    "C136_dot_refuted",
    "C136_unit",
    "C136_unit_zero",
    "C136_unit_tiny",
    "C136_unit_refuted",
    "C136_scale",
    "C136_scale_large",
    "C136_scale_small",
    "C136_scale_refuted",
    "C136_lambda",
    "C136_product"
   ],
   "note": "length, sums and cross products are safe; unit, angle, dot_product and scaling pass through float: refuted for short vectors, for squares outside the range of floats and for factors that are no floats; the two products of a matrix disagree (refuted)"
  },
  {
   "property": "C137",
   "status": "partial",
   "theorems": [
    "C137_resize",
    "C137_insert",
    "C137_insert_or_assign",
    "C137_lower_bound",
    "C137_same_type",
    "C137_no_columns",
    "C137_no_columns_signed",
    "C137_no_columns_refuted",
    "C137_truncated_refuted",
    "C137_rows_truncated_refuted",
    "C137_wrapped_debug",
    "C137_negative_debug",
    "C137_negative_row",
    "C137_negative_rows_refuted",
    "C137_last_row_refuted"
   ],
   "note": "The code compares and truncates in the common type: insert with int arguments on size_t data with more than 2^32 columns drops entries (matrix_sparse_data.hpp 222-223), resize to no columns keeps entries of wider unsigned columns, negative arguments pass in release builds, row + 1 overflows at the last row (293)."
  },
  {
   "property": "C138",
   "status": "proved",
   "theorems": [
    "C138_sweeps",
    "C138_solves",
    "C138_from_zero",
    "C138_reaches_floor",
    "C138_stops",
    "C138_eventually",
    "C138_overflows"
   ],
   "note": "Rows must be dominant by more than a factor of three; C138_overflows shows that the factor 1/2 is not enough."
  },
  {
   "property": "C139",
   "status": "proved",
   "theorems": [
    "C139_direct",
    "C139_residual",
    "C139_iterative"
   ],
   "note": "The left inverse is a real matrix given as a hypothesis; the solver does not compute one."
  },
  {
   "property": "C140",
   "status": "proved",
   "theorems": [
    "C140_gauss_seidel_stops",
    "C140_sor_stops",
    "C140_eventually",
    "C140_gauss_seidel",
    "C140_sor",
    "C140_constants",
    "C140_start",
    "C140_solves",
    "C140_reaches_floor"
   ],
   "note": "kappa and the rate depend on the condition of the matrix; where they are not below 1 nothing is claimed."
  },
  {
   "property": "C141",
   "status": "proved",
   "theorems": [
    "C141_energy",
    "C141_rate",
    "C141_away",
    "C141_jacobi",
    "C141_gauss_seidel",
    "C141_sor",
    "C141_jacobi_implies",
    "C141_not_conversely"
   ],
   "note": "Exact arithmetic; a solution is assumed to exist (C85 shows that it does for positive definite matrices)."
  },
  {
   "property": "C142",
   "status": "proved",
   "theorems": [
    "C142_jacobi",
    "C142_constants",
    "C142_reaches_floor",
    "C142_solves",
    "C142_stops",
    "C142_eventually"
   ],
   "note": ""
  },
  {
   "property": "C143",
   "status": "proved",
   "theorems": [
    "C143_constants",
    "C143_grid",
    "C143_solution",
    "C143_setup",
    "C143_jacobi",
    "C143_sweeps",
    "C143_whole",
    "C143_jacobi_stops",
    "C143_gauss_seidel_stops",
    "C143_sor_stops"
   ],
   "note": "for all right hand sides and starts; n up to 120"
  },
  {
   "property": "C144",
   "status": "partial",
   "theorems": [
    "C144_contains",
    "C144_insert",
    "C144_self_edge_refuted",
    "C144_start",
    "C144_empty_graph",
    "C144_levels",
    "C144_seeds",
    "C144_no_seeds",
    "C144_stop",
    "C144_writes",
    "C144_members",
    "C144_sparse_row",
    "C144_sparse_entry",
    "C144_sparse_sums",
    "C144_sparse_products",
    "C144_angles",
    "C144_projections",
    "C144_onto_zero",
    "C144_tolerance",
    "C144_residual",
    "C144_lu",
    "C144_integers",
    "C144_floats"
   ],
   "note": "Refuted part: a release build inserts an edge from a vertex to itself (twice when undirected) and reports it as inserted; the rest holds."
  },
  {
   "property": "C145",
   "status": "proved",
   "theorems": [
    "C145_scaled_rows",
    "C145_setup",
    "C145_grid"
   ],
   "note": "Elimination without pivoting; the constant 22 n^4 (n+1)^4 is not sharp."
  },
  {
   "property": "C146",
   "status": "proved",
   "theorems": [
    "C146_no_exchange",
    "C146_grid"
   ],
   "note": "the direct solver with pivoting keeps the order of the rows when the columns are dominated after a scaling with weights that do not decrease; the grid of the test for every right side"
  },
  {
   "property": "C147",
   "status": "proved",
   "theorems": [
    "C147_filled",
    "C147_error",
    "C147_solved"
   ],
   "note": "assembly, second order error and convergence in exact arithmetic; an example shows that in doubles the last coordinate of a row need not be 1"
  },
  {
   "property": "C148",
   "status": "proved",
   "theorems": [
    "C148_rate",
    "C148_jacobi",
    "C148_source"
   ],
   "note": "the factor per iteration is shown to exist below one, it is not given in numbers"
  },
  {
   "property": "C149",
   "status": "proved",
   "theorems": [
    "C149_definite",
    "C149_jacobi",
    "C149_dominant",
    "C149_source"
   ],
   "note": "over the reals; a first sweep that satisfies all equations is excluded, as the residuals are then divided by zero"
  },
  {
   "property": "C150",
   "status": "partial",
   "theorems": [
    "C150_sparse",
    "C150_dense",
    "C150_square",
    "C150_error",
    "C150_solved",
    "C150_kept",
    "C150_zeros_partial",
    "C150_zeros_refuted",
    "C150_start_refuted",
    "C150_refused"
   ],
   "note": "C150_zeros_refuted: a stored infinity leaves a NaN (laplace_2d.h 70 multiplies by zero), C150_zeros_partial is the case of finite elements; C150_start_refuted: the start is the function, not zero as the description (58) says"
  },
  {
   "property": "C151",
   "status": "proved",
   "theorems": [
    "C151_definite",
    "C151_free",
    "C151_rates",
    "C151_stops",
    "C151_laplace"
   ],
   "note": "Exact arithmetic. Definiteness of chained matrices, with and without prescribed unknowns; rates and stopping of the three solvers; the system of Laplace_2D."
  },
  {
   "property": "C152",
   "status": "proved",
   "theorems": [
    "C152_iterations"
   ],
   "note": "Exact arithmetic. Jacobi and Gauss-Seidel on the system of Laplace_2D, with explicit constants."
  }
 ]
}