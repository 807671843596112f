{
 "claims": [
  {
   "property": "C01",
   "status": "proved",
   "theorems": [
    "C01_cluster_ranges_tile"
   ],
   "note": ""
  },
  {
   "property": "C02",
   "status": "proved",
   "theorems": [
    "C02_dof_permutation_bijective"
   ],
   "note": ""
  },
  {
   "property": "C03",
   "status": "proved",
   "theorems": [
    "C03_cluster_sizes_and_depth"
   ],
   "note": ""
  },
  {
   "property": "C04",
   "status": "proved",
   "theorems": [
    "C04_block_leaves_tile_matrix"
   ],
   "note": ""
  },
  {
   "property": "C05",
   "status": "partial",
   "theorems": [
    "C05_admissibility_flags_partial",
    "C05_max_block_size_refuted",
    "C05_admissible_pair_refined_refuted"
   ],
   "note": "The code violates two parts of the property (flag adjusted on a copy; flag computed from the parent pair); both are refuted with witnesses, the rest is proved."
  },
  {
   "property": "C06",
   "status": "proved",
   "theorems": [
    "C06_matvec_is_dense_product",
    "C06_represented_matrix_exists"
   ],
   "note": ""
  },
  {
   "property": "C07",
   "status": "proved",
   "theorems": [
    "C07_distributed_matvec"
   ],
   "note": ""
  },
  {
   "property": "C08",
   "status": "proved",
   "theorems": [
    "C08_vector_permutation_invertible"
   ],
   "note": ""
  },
  {
   "property": "C09",
   "status": "partial",
   "theorems": [
    "C09_reinitialise_block_data_partial",
    "C09_reinitialise_doubles_operator_refuted"
   ],
   "note": "The code violates the property: initialize does not clear the list of owned leaves, so the operator doubles; proved for every H-matrix. Block data stay the same."
  },
  {
   "property": "C10",
   "status": "proved",
   "theorems": [
    "C10_frobenius_norm"
   ],
   "note": "Complex scalars over Coq's reals; standard-library axioms of the reals."
  },
  {
   "property": "C13",
   "status": "partial",
   "theorems": [
    "C13_near_blocks_compressed_partial",
    "C13_cutoff_has_no_effect_refuted"
   ],
   "note": "The code violates the property: the zero block is always overwritten by an unconditional second compression."
  },
  {
   "property": "C11",
   "status": "proved",
   "theorems": [
    "C11_aca_terminates_with_bounded_rank"
   ],
   "note": ""
  },
  {
   "property": "C12",
   "status": "proved",
   "theorems": [
    "C12_aca_interpolates",
    "C12_full_rank_is_exact"
   ],
   "note": ""
  },
  {
   "property": "C14",
   "status": "proved",
   "theorems": [
    "C14_merge_is_smallest_box",
    "C14_distance_is_set_distance",
    "C14_divide_tiles",
    "C14_diameter_and_longest_direction",
    "C14_triangle_box",
    "C14_strong_admissibility_separates",
    "C14_corners"
   ],
   "note": "Exact real arithmetic."
  },
  {
   "property": "C51",
   "status": "proved",
   "theorems": [
    "C51_dof_bounding_box",
    "C51_extend_is_smallest"
   ],
   "note": "Exact real arithmetic."
  },
  {
   "property": "C58",
   "status": "partial",
   "theorems": [
    "C58_default_box_neutral_partial",
    "C58_default_box_not_neutral_refuted"
   ],
   "note": "The code violates the property: numeric_limits<double>::min() is positive."
  },
  {
   "property": "C59",
   "status": "partial",
   "theorems": [
    "C59_created_box_reference_partial",
    "C59_created_box_reference_refuted"
   ],
   "note": "The code violates the property: reference = (max-min)/2."
  },
  {
   "property": "C15",
   "status": "proved",
   "theorems": [
    "C15_deMorton_morton",
    "C15_morton_deMorton",
    "C15_morton_rejects"
   ],
   "note": "64-bit wrap-around not modelled (values < 2^33)."
  },
  {
   "property": "C16",
   "status": "proved",
   "theorems": [
    "C16_children_of_parent",
    "C16_parent_coordinates",
    "C16_children_tile_parent"
   ],
   "note": "Tiling over exact reals."
  },
  {
   "property": "C17",
   "status": "proved",
   "theorems": [
    "C17_neighbors_exact",
    "C17_neighbors_symmetric"
   ],
   "note": "Levels up to 10 (morton throws beyond)."
  },
  {
   "property": "C18",
   "status": "proved",
   "theorems": [
    "C18_interaction_list_exact"
   ],
   "note": "For any emptiness oracle; 'node of the level' means non-empty node, as the code filters empty ones."
  },
  {
   "property": "C19",
   "status": "proved",
   "theorems": [
    "C19_near_far_partition"
   ],
   "note": "Relative to correct emptiness flags of the source's ancestors; the octree's own flags are C20/C60."
  },
  {
   "property": "C20",
   "status": "partial",
   "theorems": [
    "C20_emptiness_partial",
    "C20_emptiness_refuted"
   ],
   "note": "The constructor marks parents one level too low (octree_impl.hpp:66-70): refuted on internal levels and for spurious leaves; occupied leaves are never reported empty."
  },
  {
   "property": "C21",
   "status": "proved",
   "theorems": [
    "C21_leaf_contains_point"
   ],
   "note": "Exact reals."
  },
  {
   "property": "C60",
   "status": "partial",
   "theorems": [
    "C60_own_flags_partial",
    "C60_own_flags_refuted"
   ],
   "note": "Refuted because of C20; at-most-once holds."
  },
  {
   "property": "C61",
   "status": "proved",
   "theorems": [
    "C61_leaf_entities_partition"
   ],
   "note": "Entity indices are assumed to be iterated in order 0,1,..."
  },
  {
   "property": "C62",
   "status": "proved",
   "theorems": [
    "C62_extended_cube_contains_element"
   ],
   "note": "Exact reals, non-degenerate elements whose centroid is in the bounding cube."
  },
  {
   "property": "C63",
   "status": "proved",
   "theorems": [
    "C63_element_diameters"
   ],
   "note": "Exact reals."
  },
  {
   "property": "C22",
   "status": "proved",
   "theorems": [
    "C22_edge_numbering",
    "C22_adjacency_lists"
   ],
   "note": ""
  },
  {
   "property": "C66",
   "status": "proved",
   "theorems": [
    "C66_ids_unique"
   ],
   "note": ""
  },
  {
   "property": "C23",
   "status": "proved",
   "theorems": [
    "C23_sons",
    "C23_vertices",
    "C23_sons_orientation_area",
    "C23_son_map",
    "C23_son_domains"
   ],
   "note": "Vertex positions over exact reals."
  },
  {
   "property": "C67",
   "status": "proved",
   "theorems": [
    "C67_domain_indices_permuted"
   ],
   "note": ""
  },
  {
   "property": "C28",
   "status": "proved",
   "theorems": [
    "C28_vertices",
    "C28_triangles",
    "C28_cubes",
    "C28_consistent_orientation",
    "C28_positive_area",
    "C28_cover"
   ],
   "note": "Geometry over exact reals."
  },
  {
   "property": "C25",
   "status": "proved",
   "theorems": [
    "C25_set_algebra",
    "C25_marks"
   ],
   "note": ""
  },
  {
   "property": "C26",
   "status": "proved",
   "theorems": [
    "C26_closed_domain",
    "C26_open_domain"
   ],
   "note": "Open domains for edges with at most 256 incident domain elements; beyond that see C64."
  },
  {
   "property": "C64",
   "status": "partial",
   "theorems": [
    "C64_high_valence_partial",
    "C64_high_valence_refuted"
   ],
   "note": "The code violates the property: the incidence counter is an unsigned char; the exact behaviour (count modulo 256) is proved."
  },
  {
   "property": "C65",
   "status": "partial",
   "theorems": [
    "C65_complement_partial",
    "C65_complement_refuted"
   ],
   "note": "The code violates the property for negative excluded indices."
  },
  {
   "property": "C33",
   "status": "proved",
   "theorems": [
    "C33_dense_assembly",
    "C33_dense_potential"
   ],
   "note": "Loads, stores and the mutex interleave arbitrarily; local integrals are an arbitrary function."
  },
  {
   "property": "C34",
   "status": "proved",
   "theorems": [
    "C34_dense_block"
   ],
   "note": "Relative to a space whose global2localDofs inverts getGlobalDofs (C29-C31 establish it for the spaces); reversed ranges are C68."
  },
  {
   "property": "C68",
   "status": "partial",
   "theorems": [
    "C68_reversed_range_partial",
    "C68_reversed_range_refuted"
   ],
   "note": "The code violates the property."
  },
  {
   "property": "C35",
   "status": "proved",
   "theorems": [
    "C35_matrix_block",
    "C35_sparse_terms_throw"
   ],
   "note": "Local integrals are taken at the block's minimum distance. m_indexWithGlobalDofs = true."
  },
  {
   "property": "C36",
   "status": "proved",
   "theorems": [
    "C36_potential_block"
   ],
   "note": ""
  },
  {
   "property": "C37",
   "status": "proved",
   "theorems": [
    "C37_dof_lists",
    "C37_cache"
   ],
   "note": "TBB's concurrent_unordered_map find/insert taken as atomic."
  },
  {
   "property": "C38",
   "status": "proved",
   "theorems": [
    "C38_component_lists",
    "C38_cache"
   ],
   "note": "TBB's concurrent_unordered_map find/insert taken as atomic."
  },
  {
   "property": "C24",
   "status": "proved",
   "theorems": [
    "C24_lazy_get",
    "C24_lazy_once"
   ],
   "note": "tbb::mutex and tbb::atomic taken as sequentially consistent. barycentricGridSonPair is C69."
  },
  {
   "property": "C69",
   "status": "partial",
   "theorems": [
    "C69_barycentric_pair_partial",
    "C69_barycentric_pair_refuted"
   ],
   "note": "The code violates the property: the grid pointer is published before the son map is filled and is tested without the lock."
  },
  {
   "property": "C50",
   "status": "proved",
   "theorems": [
    "C50_scattered_range",
    "C50_grain"
   ],
   "note": "size_t arithmetic modelled modulo 2^64; ranges ending at or below 2^62. Splits only while is_divisible(), as TBB's range concept demands."
  },
  {
   "property": "C27",
   "status": "partial",
   "theorems": [
    "C27_inside_partial",
    "C27_parity_refuted"
   ],
   "note": "The code violates the property: any non-zero number of crossings counts as inside; exact behaviour proved. Exact rational arithmetic."
  },
  {
   "property": "C70",
   "status": "partial",
   "theorems": [
    "C70_intersection_point_partial",
    "C70_intersection_point_refuted"
   ],
   "note": "The code violates the property: it adds the offsets to v1 instead of v0; the exact displacement is proved."
  },
  {
   "property": "C71",
   "status": "proved",
   "theorems": [
    "C71_ray_triangle"
   ],
   "note": "Exact rational arithmetic."
  },
  {
   "property": "C29",
   "status": "proved",
   "theorems": [
    "C29_p1_dofs",
    "C29_space_meets_assembly"
   ],
   "note": ""
  },
  {
   "property": "C30",
   "status": "proved",
   "theorems": [
    "C30_discontinuous_p1_dofs",
    "C30_piecewise_constant_dofs"
   ],
   "note": "Flat local dofs of piecewise constants on proper segments: C73."
  },
  {
   "property": "C31",
   "status": "proved",
   "theorems": [
    "C31_rwg_dofs"
   ],
   "note": "Other modes and valences: C72."
  },
  {
   "property": "C32",
   "status": "proved",
   "theorems": [
    "C32_global_to_flat_matrix"
   ],
   "note": "Weighted spaces: C74."
  },
  {
   "property": "C72",
   "status": "partial",
   "theorems": [
    "C72_rwg_any_valence_partial",
    "C72_rwg_two_elements_refuted",
    "C72_rwg_element_mode_refuted"
   ],
   "note": "The code violates the property; exact dofs and weights proved."
  },
  {
   "property": "C73",
   "status": "partial",
   "theorems": [
    "C73_p0_segment_flat_partial",
    "C73_p0_segment_flat_refuted"
   ],
   "note": "The code violates the property: flatLocalDofCount is the element count of the grid."
  },
  {
   "property": "C74",
   "status": "partial",
   "theorems": [
    "C74_weighted_mapping_partial",
    "C74_weighted_mapping_refuted"
   ],
   "note": "The code violates the property: entries are always one."
  },
  {
   "property": "C39",
   "status": "proved",
   "theorems": [
    "C39_cache_sequential"
   ],
   "note": "Concurrency: C77; aliveOperators: C78; equal ids at different addresses: C79."
  },
  {
   "property": "C40",
   "status": "proved",
   "theorems": [
    "C40_sparse_real",
    "C40_sparse_complex"
   ],
   "note": "Operators constructed with CONJUGATE: C75. Exact arithmetic; uninitialised or NaN content of y modelled by a poison value."
  },
  {
   "property": "C41",
   "status": "proved",
   "theorems": [
    "C41_dense_apply",
    "C41_default_asMatrix",
    "C41_apply_columns",
    "C41_apply_fresh",
    "C41_hmat_apply"
   ],
   "note": "The overload taking Eigen::Ref does not check sizes in release builds; wrong sizes there are outside the contract."
  },
  {
   "property": "C42",
   "status": "proved",
   "theorems": [
    "C42_local_operators"
   ],
   "note": "Local matrices are an arbitrary function of the element. Complex result types: C76."
  },
  {
   "property": "C75",
   "status": "partial",
   "theorems": [
    "C75_conjugate_mode_partial",
    "C75_conjugate_mode_refuted"
   ],
   "note": "The code violates the property: CONJUGATE & (TRANSPOSE|CONJUGATE_TRANSPOSE) is non-zero; exact behaviour (the transpose) proved."
  },
  {
   "property": "C76",
   "status": "partial",
   "theorems": [
    "C76_complex_sparse_partial",
    "C76_complex_sparse_refuted"
   ],
   "note": "The code violates the property: only real parts are kept; equality proved for real local matrices."
  },
  {
   "property": "C77",
   "status": "partial",
   "theorems": [
    "C77_cache_threads_partial",
    "C77_cache_threads_refuted"
   ],
   "note": "The code violates the property: NULL may be returned; non-null results are right."
  },
  {
   "property": "C78",
   "status": "partial",
   "theorems": [
    "C78_alive_operators_partial",
    "C78_alive_operators_refuted"
   ],
   "note": "The code violates the property: the loop condition compares with begin()."
  },
  {
   "property": "C79",
   "status": "partial",
   "theorems": [
    "C79_equal_ids_partial",
    "C79_equal_ids_refuted"
   ],
   "note": "The code violates the property: the hash is taken of the id object's address."
  },
  {
   "property": "C43",
   "status": "proved",
   "theorems": [
    "array_addressing",
    "array_assignment",
    "array_checked_access",
    "array_slice_aliases"
   ],
   "note": "Sizes are 64-bit unsigned; the product of the extents is assumed to fit in them."
  },
  {
   "property": "C44",
   "status": "proved",
   "theorems": [
    "array_plus_equal_extents",
    "array_times_scalar"
   ],
   "note": "Exact arithmetic. Different extents: C80."
  },
  {
   "property": "C80",
   "status": "partial",
   "theorems": [
    "array_plus_other_extents_partial",
    "array_plus_other_extents_refuted"
   ],
   "note": "The code violates the property: the exception is constructed but not thrown; rejection proved when bounds checks are compiled in and some index of the left array is out of range in the right one."
  },
  {
   "property": "C81",
   "status": "proved",
   "theorems": [
    "array_storage_safe"
   ],
   "note": "A client's memory is assumed to outlive the arrays on it."
  },
  {
   "property": "C49",
   "status": "proved",
   "theorems": [
    "hermite_initialize",
    "hermite_in_bounds",
    "hermite_nodes",
    "hermite_error"
   ],
   "note": "Exact real arithmetic, real ValueType. The closed end of the range: C82."
  },
  {
   "property": "C82",
   "status": "partial",
   "theorems": [
    "hermite_range_end_partial",
    "hermite_range_end_refuted"
   ],
   "note": "The code violates the property: x = end reads one past the end; proved for every other point of the range."
  },
  {
   "property": "C83",
   "status": "proved",
   "theorems": [
    "max_distance_bounds"
   ],
   "note": "Exact real arithmetic, three-dimensional world."
  },
  {
   "property": "C84",
   "status": "partial",
   "theorems": [
    "kernel_interpolation_partial",
    "kernel_interpolation_refuted"
   ],
   "note": "The code violates the property: for low wave numbers fewer than two samples are taken and set-up throws; proved with error bound when the range holds at least one sampling interval. Real wave numbers."
  },
  {
   "property": "C45",
   "status": "proved",
   "theorems": [
    "topology_classification",
    "topology_symmetric"
   ],
   "note": "Elements with 3 or 4 distinct vertices. Symmetry up to the order of the two shared vertices."
  },
  {
   "property": "C47",
   "status": "proved",
   "theorems": [
    "singular_rule_triangles",
    "singular_rule_quadrangle",
    "singular_rule_rejects"
   ],
   "note": "Exact real arithmetic. Quadrilaterals: the code implements coincident pairs only and throws otherwise, which is what is proved."
  },
  {
   "property": "C85",
   "status": "proved",
   "theorems": [
    "duffy_jacobian",
    "duffy_partition",
    "duffy_total_weight"
   ],
   "note": "Exact real arithmetic. Pairs on finitely many hyperplanes (null sets) excluded from the covering."
  },
  {
   "property": "C86",
   "status": "proved",
   "theorems": [
    "kernel_never_singular"
   ],
   "note": "Exact real arithmetic; triangles."
  },
  {
   "property": "C46",
   "status": "proved",
   "theorems": [
    "order_lookup",
    "order_lists_checked",
    "order_ranges"
   ],
   "note": "std::sort is called with <= as comparator: modelled as libstdc++ behaves (insertion for at most 16 entries, undefined for more entries with equal distances). Exact real distances and infinity, no NaN."
  },
  {
   "property": "C87",
   "status": "proved",
   "theorems": [
    "regular_orders",
    "singular_orders",
    "orders_symmetric",
    "element_measures",
    "regular_pairs"
   ],
   "note": "Exact real arithmetic; int overflow not modelled."
  },
  {
   "property": "C48",
   "status": "proved",
   "theorems": [
    "cache_transparent",
    "cache_builds",
    "local_matrices",
    "cache_complete"
   ],
   "note": "Integrators are arbitrary functions of descriptor, shapesets and element pair; integrating for one local dof is assumed to give that column or row of the whole local matrix."
  },
  {
   "property": "C52",
   "status": "proved",
   "theorems": [
    "C52_op_algebra",
    "C52_zero_transpose"
   ],
   "note": "by induction over expression trees; the sparse solver is any function with the transposition laws of a generalised inverse"
  },
  {
   "property": "C53",
   "status": "partial",
   "theorems": [
    "C53_adjoint_partial",
    "C53_adjoint_refuted"
   ],
   "note": "holds for real scalar factors (adjoint) and without sparse and complex dense operators (rmatvec); refuted otherwise"
  },
  {
   "property": "C88",
   "status": "partial",
   "theorems": [
    "C88_mismatch_partial",
    "C88_mismatch_refuted"
   ],
   "note": "broadcasting of dense operators with a dimension 1 and zero operators are the exceptions"
  },
  {
   "property": "C54",
   "status": "proved",
   "theorems": [
    "C54_blocked_algebra",
    "C54_block_matrix_exists",
    "C54_blocked_rejects"
   ],
   "note": "by induction over expressions of blocked operators; wrong operand sizes: C89"
  },
  {
   "property": "C89",
   "status": "partial",
   "theorems": [
    "C89_block_mismatch_partial",
    "C89_block_mismatch_refuted"
   ],
   "note": "The code violates the property: NumPy broadcasts one-entry dimension lists, and superfluous rows of 2-d arrays are ignored."
  },
  {
   "property": "C56",
   "status": "proved",
   "theorems": [
    "C56_history_invisible",
    "C56_cached"
   ],
   "note": "heap of operators with caches; blocked operators: separate property"
  },
  {
   "property": "C57",
   "status": "proved",
   "theorems": [
    "C57_calculus",
    "C57_strong_product",
    "C57_rejects"
   ],
   "note": "transposes of zero operators and adjoints of complex multiples excluded (C52, C53); other mismatches of spaces: C90"
  },
  {
   "property": "C90",
   "status": "partial",
   "theorems": [
    "C90_compatible_spaces_partial",
    "C90_compatible_spaces_refuted"
   ],
   "note": "The code violates the property: only the numbers of degrees of freedom are compared, so operators on different grids or with spaces of different kinds can be combined."
  },
  {
   "property": "C91",
   "status": "partial",
   "theorems": [
    "C91_blocked_cache_partial",
    "C91_blocked_cache_refuted"
   ],
   "note": "The code violates the property: __setitem__ does not drop cached weak forms, and recompute=True is not passed on to the parts of sums, multiples and products; proved when no block is assigned after a discretisation that involves it."
  },
  {
   "property": "C92",
   "status": "partial",
   "theorems": [
    "C92_blocked_strong_partial",
    "C92_blocked_strong_refuted"
   ],
   "note": "The code violates the property: the array of range maps has as many columns as the operator, so operators that are not square have no strong form and cannot be right factors; proved for square ones."
  },
  {
   "property": "C55",
   "status": "proved",
   "theorems": [
    "C55_coefficients",
    "C55_round_trip",
    "C55_projections"
   ],
   "note": "for functions of any program without the reads refuted in C93"
  },
  {
   "property": "C93",
   "status": "partial",
   "theorems": [
    "C93_functions_partial",
    "C93_functions_refuted"
   ],
   "note": "The code violates the property: projections(d) replaces the dual space before the coefficients are computed, so for a function given by projections another d gives wrong projections and changes the function; multiples and sums lose the dual space once coefficients were read.  Proved for programs without such reads."
  },
  {
   "property": "C94",
   "status": "proved",
   "theorems": [
    "C94_operator_times_function",
    "C94_product",
    "C94_blocked"
   ],
   "note": "weak forms by C56, C57 and C91"
  },
  {
   "property": "C95",
   "status": "partial",
   "theorems": [
    "C95_rejects_partial",
    "C95_rejects_refuted"
   ],
   "note": "The code violates the property: operators compare only the numbers of degrees of freedom, blocked operators not even these (the array product does)."
  },
  {
   "property": "C96",
   "status": "proved",
   "theorems": [
    "C96_assignment",
    "C96_block_spaces"
   ],
   "note": "invariant over histories"
  },
  {
   "property": "C97",
   "status": "proved",
   "theorems": [
    "C97_tensor_blas",
    "C97_tensor_loops"
   ],
   "note": "exact arithmetic"
  },
  {
   "property": "C98",
   "status": "proved",
   "theorems": [
    "C98_pairs_blas",
    "C98_pairs_loops",
    "C98_pairs_real_basis"
   ],
   "note": "exact arithmetic"
  },
  {
   "property": "C99",
   "status": "partial",
   "theorems": [
    "C99_shared_kernel_partial",
    "C99_shared_kernel_refuted"
   ],
   "note": "The code violates the property: for complex basis functions and a real kernel the tensor rule indexes the kernels by transformation and reads past the end.  No shipped operator combines these."
  },
  {
   "property": "C100",
   "status": "proved",
   "theorems": [
    "C100_tensor_rule",
    "C100_pair_rule",
    "C100_pair_rule_real_basis"
   ],
   "note": "kernel values arbitrary; exact arithmetic"
  },
  {
   "property": "C101",
   "status": "proved",
   "theorems": [
    "C101_continuous_polynomial_dofs",
    "C101_order_refused"
   ],
   "note": "triangles; the code refuses quadrilaterals"
  },
  {
   "property": "C102",
   "status": "proved",
   "theorems": [
    "C102_discontinuous_polynomial_dofs",
    "C102_refused"
   ],
   "note": "triangles"
  },
  {
   "property": "C103",
   "status": "proved",
   "theorems": [
    "C103_super_space_contains"
   ],
   "note": "order 1 uses the separate linear space, also modelled"
  },
  {
   "property": "C104",
   "status": "partial",
   "theorems": [
    "C104_flat_dofs_in_global_order_partial",
    "C104_flat_dofs_in_global_order_refuted"
   ],
   "note": "The code violates the property: the data are those of global dof i, but from order 2 on flat local dofs and global dofs are numbered differently; proved for orders 0 and 1."
  },
  {
   "property": "C105",
   "status": "proved",
   "theorems": [
    "C105_conormal_exists",
    "C105_raviart_thomas_conforming",
    "C105_rwg_conforming"
   ],
   "note": "Dune's reference functions, Jacobian and integration element are modelled by their documented values; exact arithmetic"
  },
  {
   "property": "C106",
   "status": "proved",
   "theorems": [
    "C106_surface_divergence",
    "C106_divergence_of_basis"
   ],
   "note": "exact arithmetic"
  },
  {
   "property": "C107",
   "status": "proved",
   "theorems": [
    "C107_nedelec_conforming",
    "C107_surface_curl_value",
    "C107_curl_is_divergence"
   ],
   "note": "exact arithmetic"
  },
  {
   "property": "C108",
   "status": "proved",
   "theorems": [
    "C108_normal",
    "C108_surface_gradient"
   ],
   "note": "exact arithmetic; Dune's pseudo-inverse modelled by its formula"
  },
  {
   "property": "C109",
   "status": "proved",
   "theorems": [
    "C109_polynomial_functions",
    "C109_linear_functions"
   ],
   "note": "Dune's Pk2D and P1 bases are modelled by their documented formulas; exact arithmetic"
  },
  {
   "property": "C110",
   "status": "partial",
   "theorems": [
    "C110_vertex_values_partial",
    "C110_vertex_values_refuted"
   ],
   "note": "The code violates the property: for strictly_on_segment a later element outside the segment overwrites the value by 0; proved for spaces that are not strict."
  },
  {
   "property": "C111",
   "status": "partial",
   "theorems": [
    "C111_integral_partial",
    "C111_integral_refuted"
   ],
   "note": "The code violates the property: it raises for vector-valued and for complex functions; proved for real scalar ones."
  },
  {
   "property": "C112",
   "status": "proved",
   "theorems": [
    "C112_kernels_are_derivatives",
    "C112_laplace",
    "C112_symmetry",
    "C112_dependencies"
   ],
   "note": "exact real arithmetic; interpolated kernels are not covered here (C49, C82-C84); compiled with NDEBUG"
  },
  {
   "property": "C113",
   "status": "proved",
   "theorems": [
    "C113_potentials_solve_the_equation",
    "C113_gradients_and_divergence",
    "C113_evaluation_succeeds",
    "C113_additive"
   ],
   "note": "exact arithmetic; the surface enters through arbitrary quadrature points, normals, weights and density values"
  },
  {
   "property": "C114",
   "status": "proved",
   "theorems": [
    "C114_far_field_limits"
   ],
   "note": "exact arithmetic"
  },
  {
   "property": "C115",
   "status": "proved",
   "theorems": [
    "C115_outgoing"
   ],
   "note": "exact arithmetic"
  },
  {
   "property": "C116",
   "status": "proved",
   "theorems": [
    "C116_local_matrices",
    "C116_size_mismatch"
   ],
   "note": "for rules with at least one point; transformations, kernels and integrals are parameters that read only the data they declare"
  },
  {
   "property": "C117",
   "status": "proved",
   "theorems": [
    "C117_basis_data_cache",
    "C117_local_matrices"
   ],
   "note": "the concurrent map's find and insert are atomic steps"
  },
  {
   "property": "C118",
   "status": "proved",
   "theorems": [
    "C118_potential_matrices"
   ],
   "note": "for kernels that ask only for positions at the evaluation point (all kernels of the library used in potentials)"
  },
  {
   "property": "C119",
   "status": "proved",
   "theorems": [
    "C119_space_preprocessing",
    "C119_project"
   ],
   "note": "exact arithmetic; the assembly of the building blocks is assumed to give Galerkin matrices (C36, C37, C97-C100, C116); inclusion in the super space is C103, C104 for scalar spaces"
  },
  {
   "property": "C120",
   "status": "proved",
   "theorems": [
    "C120_hypersingular",
    "C120_factory_slp"
   ],
   "note": "exact arithmetic; the building blocks are assumed to give Galerkin matrices"
  },
  {
   "property": "C121",
   "status": "proved",
   "theorems": [
    "C121_multitrace_linear",
    "C121_multitrace_dual",
    "C121_multitrace_target_linear",
    "C121_multitrace_target_dual",
    "C121_pair_linear",
    "C121_pair_dual"
   ],
   "note": "exact arithmetic; the building blocks are assumed to give Galerkin matrices"
  },
  {
   "property": "C122",
   "status": "partial",
   "theorems": [
    "C122_factory_partial",
    "C122_options",
    "C122_factory_refuted"
   ],
   "note": "the code violates the rest: vector spaces accept negative orders, barycentric and dual spaces ignore domains, without an error"
  },
  {
   "property": "C123",
   "status": "proved",
   "theorems": [
    "C123_attributes"
   ],
   "note": "grids compared by identity, barycentric_grid() made once per grid, no refinement between the calls"
  },
  {
   "property": "C124",
   "status": "proved",
   "theorems": [
    "C124_equal_spaces",
    "C124_equality",
    "C124_segments"
   ],
   "note": "excludes the private attribute _hdiv_space of rotated Buffa-Christiansen spaces, whose key is None so that any two compare equal"
  },
  {
   "property": "C125",
   "status": "proved",
   "theorems": [
    "C125_son_triangles",
    "C125_sons_cover",
    "C125_son_map",
    "C125_linear",
    "C125_discontinuous_linear"
   ],
   "note": "exact real arithmetic; Dune's geometry map and P1 basis assumed"
  },
  {
   "property": "C126",
   "status": "partial",
   "theorems": [
    "C126_vector_partial",
    "C126_vector_refuted"
   ],
   "note": "The code violates the rest: where three triangles meet in an edge, the coarse space has a dof and the barycentric one has none; proved for grids in which at most two triangles meet in an edge."
  },
  {
   "property": "C127",
   "status": "proved",
   "theorems": [
    "C127_dual_cells",
    "C127_cells_touch_vertex",
    "C127_constants"
   ],
   "note": "exact arithmetic"
  },
  {
   "property": "C128",
   "status": "proved",
   "theorems": [
    "C128_dual_functions",
    "C128_div_conforming",
    "C128_rotated"
   ],
   "note": "exact real arithmetic; Dune's geometry map, Jacobian and RT basis assumed; the vertex numbering of the refinement is the one C23 proves"
  },
  {
   "property": "C129",
   "status": "partial",
   "theorems": [
    "C129_construction_ends_partial",
    "C129_construction_ends_refuted",
    "C129_bad_orientation_refuted"
   ],
   "note": "The code violates the rest: on two triangles of opposite orientation both spaces read a vector at index -1, and the rotated space lacks the check of the other one and runs for ever on two pairs of triangles that share a vertex; proved for BC, on every input."
  },
  {
   "property": "C130",
   "status": "proved",
   "theorems": [
    "C130_import_ascii",
    "C130_import_binary"
   ],
   "note": "printing and parsing of floating point numbers and the order in which argsort returns equal values are parameters; building the Dune grid from the arrays is not modelled; Python 3, little endian"
  },
  {
   "property": "C131",
   "status": "proved",
   "theorems": [
    "C131_data_set_ascii",
    "C131_data_set_binary",
    "C131_export"
   ],
   "note": "for functions of one type and one number of components, a time for each, no transformation; the rest is C133-C138"
  },
  {
   "property": "C132",
   "status": "proved",
   "theorems": [
    "C132_round_trip_ascii",
    "C132_round_trip_binary"
   ],
   "note": "printing and parsing of floating point numbers is a parameter; binary files without data (C135)"
  },
  {
   "property": "C133",
   "status": "partial",
   "theorems": [
    "C133_domain_indices_partial",
    "C133_import_partial",
    "C133_domain_indices_refuted"
   ],
   "note": "the code violates the rest: export passes no domain indices, all are written as 0"
  },
  {
   "property": "C134",
   "status": "partial",
   "theorems": [
    "C134_ids_partial",
    "C134_ids_ignored",
    "C134_ids_refuted"
   ],
   "note": "the code violates the rest: ids given to export never reach a Gmsh file; with export_data_sets they do (C131)"
  },
  {
   "property": "C135",
   "status": "partial",
   "theorems": [
    "C135_binary_data_partial",
    "C135_binary_data_refuted"
   ],
   "note": "the code violates the rest: the bytes of the data are decoded as UTF-8 text, which raises for the value 1.0"
  },
  {
   "property": "C136",
   "status": "partial",
   "theorems": [
    "C136_series_partial",
    "C136_series_refuted",
    "C136_mixed_types_refuted"
   ],
   "note": "the code violates the rest: the default time steps are one, so two functions raise an exception, and the type of the first function decides whether imaginary parts are written"
  },
  {
   "property": "C137",
   "status": "partial",
   "theorems": [
    "C137_transformation_partial",
    "C137_modes_partial",
    "C137_components_raise",
    "C137_transformation_refuted"
   ],
   "note": "the code violates the rest: 'abs', 'abs_squared' and 'log_abs' of functions with several components raise an exception"
  },
  {
   "property": "C138",
   "status": "partial",
   "theorems": [
    "C138_several_data_sets_partial",
    "C138_several_data_sets_refuted"
   ],
   "note": "the code violates the rest: default ids of the first data set are used for the others"
  },
  {
   "property": "C139",
   "status": "partial",
   "theorems": [
    "C139_dangling_partial",
    "C139_dangling_binary_partial",
    "C139_dangling_refuted"
   ],
   "note": "the code violates the rest: node 0 and some negative ids count from the end of the list"
  },
  {
   "property": "C140",
   "status": "proved",
   "theorems": [
    "C140_import_ends"
   ],
   "note": ""
  },
  {
   "property": "C141",
   "status": "proved",
   "theorems": [
    "C141_gmres",
    "C141_gmres_applied",
    "C141_cg",
    "C141_square"
   ],
   "note": "SciPy's iterations are parameters: code 0 means that the system is solved up to the tolerance"
  },
  {
   "property": "C142",
   "status": "proved",
   "theorems": [
    "C142_strong",
    "C142_strong_applied"
   ],
   "note": ""
  },
  {
   "property": "C143",
   "status": "partial",
   "theorems": [
    "C143_other_space_partial",
    "C143_other_space_refuted"
   ],
   "note": "the code violates the rest: only the numbers of degrees of freedom are compared"
  },
  {
   "property": "C144",
   "status": "partial",
   "theorems": [
    "C144_projected_rhs_partial",
    "C144_projected_rhs_refuted"
   ],
   "note": "the code violates the rest: projections onto another dual space are taken for those onto the dual space of A (grid_function.py: projections), and the solver reports success"
  },
  {
   "property": "C145",
   "status": "proved",
   "theorems": [
    "C145_lu"
   ],
   "note": ""
  },
  {
   "property": "C146",
   "status": "partial",
   "theorems": [
    "C146_lu_factors_partial",
    "C146_lu_factors_refuted"
   ],
   "note": "the code violates the rest: compute_lu_factors raises for every operator, and lu for those stored sparse"
  },
  {
   "property": "C147",
   "status": "proved",
   "theorems": [
    "C147_blocked_weak",
    "C147_blocked_square",
    "C147_blocked_strong"
   ],
   "note": ""
  },
  {
   "property": "C148",
   "status": "partial",
   "theorems": [
    "C148_rhs_list_partial",
    "C148_short_partial",
    "C148_rhs_list_refuted"
   ],
   "note": "the code violates the rest: with the weak form superfluous functions are ignored, with the strong form only the sum of the numbers of degrees of freedom counts"
  },
  {
   "property": "C149",
   "status": "proved",
   "theorems": [
    "C149_evaluate",
    "C149_linear"
   ],
   "note": ""
  },
  {
   "property": "C150",
   "status": "partial",
   "theorems": [
    "C150_mismatch_partial",
    "C150_mismatch_refuted"
   ],
   "note": "the code violates the rest: of the spaces only the numbers of degrees of freedom are compared, and a * P raises"
  },
  {
   "property": "C151",
   "status": "proved",
   "theorems": [
    "C151_local_contributions",
    "C151_integrators"
   ],
   "note": "exact arithmetic; kernels, shape functions and geometry are parameters that use only the data they declare"
  },
  {
   "property": "C152",
   "status": "proved",
   "theorems": [
    "C152_potential_blocks"
   ],
   "note": "exact arithmetic; the choice of rules succeeds (C153)"
  },
  {
   "property": "C153",
   "status": "proved",
   "theorems": [
    "C153_orders",
    "C153_choice"
   ],
   "note": "exact real arithmetic"
  },
  {
   "property": "C154",
   "status": "proved",
   "theorems": [
    "C154_row_geometry"
   ],
   "note": ""
  },
  {
   "property": "C155",
   "status": "proved",
   "theorems": [
    "C155_dof_volumes",
    "C155_zero_tests"
   ],
   "note": ""
  },
  {
   "property": "C156",
   "status": "partial",
   "theorems": [
    "C156_zero_tests_of_potentials_partial",
    "C156_zero_tests_of_potentials_refuted"
   ],
   "note": "the code violates the rest: the vector of volumes has one entry per point, so for potentials with several components the rows from the number of points on read behind its end; proved for scalar potentials"
  },
  {
   "property": "C157",
   "status": "proved",
   "theorems": [
    "C157_refine_ends"
   ],
   "note": "exact real arithmetic; edges of the Dune grid identified with pairs of vertices"
  },
  {
   "property": "C158",
   "status": "proved",
   "theorems": [
    "C158_surface"
   ],
   "note": ""
  },
  {
   "property": "C159",
   "status": "proved",
   "theorems": [
    "C159_smallest",
    "C159_order"
   ],
   "note": ""
  },
  {
   "property": "C160",
   "status": "proved",
   "theorems": [
    "C160_tiles"
   ],
   "note": "exact real arithmetic"
  },
  {
   "property": "C161",
   "status": "proved",
   "theorems": [
    "C161_quality",
    "C161_longest"
   ],
   "note": "exact real arithmetic"
  },
  {
   "property": "C162",
   "status": "partial",
   "theorems": [
    "C162_no_hanging_nodes_partial",
    "C162_no_hanging_nodes_refuted"
   ],
   "note": "the code violates the rest: where three or more elements meet in an edge only the first neighbour is told about the new vertex, so that the others keep the whole edge; proved for surfaces"
  },
  {
   "property": "C163",
   "status": "partial",
   "theorems": [
    "C163_marks_partial",
    "C163_marks_refuted"
   ],
   "note": "the code violates the rest: get_mark indexes a set and so raises once anything has been marked; clear_marks and refine raise before anything has been marked"
  },
  {
   "property": "C164",
   "status": "proved",
   "theorems": [
    "C164_connectivity"
   ],
   "note": ""
  },
  {
   "property": "C165",
   "status": "proved",
   "theorems": [
    "C165_singular_part",
    "C165_different_grids",
    "C165_rest"
   ],
   "note": "dof weights are real, as in every space of the library"
  },
  {
   "property": "C166",
   "status": "proved",
   "theorems": [
    "C166_interpolation",
    "C166_reproduces",
    "C166_nodes"
   ],
   "note": "exact real arithmetic"
  },
  {
   "property": "C167",
   "status": "proved",
   "theorems": [
    "C167_derivative"
   ],
   "note": "exact real arithmetic"
  },
  {
   "property": "C168",
   "status": "proved",
   "theorems": [
    "C168_children"
   ],
   "note": "exact real arithmetic"
  },
  {
   "property": "C169",
   "status": "proved",
   "theorems": [
    "C169_derivative3d"
   ],
   "note": "exact real arithmetic"
  },
  {
   "property": "C170",
   "status": "proved",
   "theorems": [
    "C170_regular_sphere_surface"
   ],
   "note": "int overflow of node numbers (n > 14) not modelled"
  },
  {
   "property": "C171",
   "status": "proved",
   "theorems": [
    "C171_regular_sphere_geometry"
   ],
   "note": "exact real arithmetic"
  },
  {
   "property": "C172",
   "status": "proved",
   "theorems": [
    "C172_entity_from_index"
   ],
   "note": "views never change after construction"
  },
  {
   "property": "C173",
   "status": "partial",
   "theorems": [
    "C173_later_calls_partial",
    "C173_first_call",
    "C173_entity_from_insertion_index_refuted"
   ],
   "note": "the loop that fills the cache assigns to the parameter, so the first call returns the entity visited last, whatever was asked for; all later calls are right"
  },
  {
   "property": "C174",
   "status": "proved",
   "theorems": [
    "C174_dof_to_vertex"
   ],
   "note": "np.int needs an old numpy"
  },
  {
   "property": "C175",
   "status": "proved",
   "theorems": [
    "C175_trace"
   ],
   "note": "the boundary grid is built from the vertices and cells of the boundary mesh; dolfin's maps are parameters"
  },
  {
   "property": "C176",
   "status": "proved",
   "theorems": [
    "C176_element_data_round_trip"
   ],
   "note": "both arrays have a column; values fit double and intc; Dune's numbering is any pair of permutations and every inserted vertex is an entity"
  },
  {
   "property": "C177",
   "status": "partial",
   "theorems": [
    "C177_enough_rows_partial",
    "C177_rows_checked_refuted"
   ],
   "note": "the number of rows is never checked: the C++ check sees the rows of an Eigen::Map, always 3; with at least three rows nothing outside the arrays is read, but the columns are taken apart wrongly when there are more"
  },
  {
   "property": "C178",
   "status": "proved",
   "theorems": [
    "C178_structured_planes",
    "C178_structured_rejects"
   ],
   "note": "exact reals; Dune's numbering of the intermediate grid is arbitrary"
  },
  {
   "property": "C179",
   "status": "proved",
   "theorems": [
    "C179_single_dof"
   ],
   "note": ""
  },
  {
   "property": "C180",
   "status": "proved",
   "theorems": [
    "C180_bounding_box"
   ],
   "note": "exact reals; rounding of the mean could violate the assertions by an ulp"
  }
 ]
}